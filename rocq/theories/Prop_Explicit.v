(** * C65: functions given by rules, constant functions, and their interpolants *)
From Coq Require Import List Arith Bool Lia Permutation QArith Lqa.
From Verif Require Import Tree Forest SpecForest TreeFacts Geom SpecGeom Mesh1D Fem SpecFem Dof SpecDof DofVert SpecDofVert Basis Solver Nodal NodalFacts
  Nodal1 SpecNodal Nodal1More Prop_Nodal Prop_Nodal3.
Import ListNotations.
Open Scope Q_scope.

(** rule [i] of a list: one rule stands for all *)
Definition rule_at {X} (l : list X) (i : nat) (x : X) : Prop := nth_error l i = Some x \/ l = [x].
Definition compatible {X Y} (f : list X) (p : list Y) : Prop :=
  f <> [] /\ p <> [] /\ (length f = length p \/ length f = 1%nat \/ length p = 1%nat).

Section Rules.
Context {P K : Type}.
Implicit Types (f : list (K -> P -> Q)) (ps : list K) (r : list (K -> P -> Q) * list K).

(** the values of rules that are paired one by one *)
Lemma eval_paired f ps (xs : list P) : length f = length ps -> f <> [] ->
  explicit_eval (f, ps) xs = Ok (map (fun x => map (fun gp => fst gp (snd gp) x) (combine f ps)) xs).
Proof.
  intros L N. unfold explicit_eval. cbn [fst snd].
  replace (if 1 <? length f then length f else 1)%nat with (length f).
  2:{ destruct (1 <? length f)%nat eqn:E; auto. apply Nat.ltb_ge in E. destruct f as [|g [|g' f]]; cbn in *; try congruence; lia. }
  assert (X : forall f ps pre qre, length f = length ps -> length pre = length qre ->
    map_res (fun i => bind (at_ (pre ++ f) i) (fun g => bind (at_ (qre ++ ps) i) (fun p => Ok (g p)))) (seq (length pre) (length f)) =
    Ok (map (fun gp => fst gp (snd gp)) (combine f ps))).
  { clear. induction f as [|g f IH]; intros [|p ps] pre qre Lf Lp; try discriminate; [reflexivity|]. cbn [length seq map_res].
    unfold at_ at 1 2. rewrite nth_error_app2, Nat.sub_diag by lia. cbn [nth_error bind]. rewrite Lp, nth_error_app2, Nat.sub_diag by lia. cbn [nth_error bind].
    rewrite <- Lp. specialize (IH ps (pre ++ [g]) (qre ++ [p])). rewrite <- !app_assoc in IH. cbn [app] in IH. rewrite !app_length in IH. cbn [length] in IH.
    replace (length pre + 1)%nat with (S (length pre)) in IH by lia. rewrite IH; [reflexivity|cbn in Lf; lia|lia]. }
  specialize (X f ps [] [] L eq_refl). cbn [app length] in X. rewrite X. cbn [bind]. f_equal. apply map_ext. intro x. rewrite map_map. reflexivity.
Qed.
Lemma set_rules_paired f ps : compatible f ps -> exists f' ps', set_rules f ps = Ok (f', ps') /\ length f' = length ps' /\ length f' = Nat.max (length f) (length ps) /\ f' <> [] /\
  forall i g p, nth_error f' i = Some g -> nth_error ps' i = Some p -> rule_at f i g /\ rule_at ps i p.
Proof.
  intros [Nf [Np H]]. unfold set_rules.
  destruct (1 <? length f)%nat eqn:E1; destruct (1 <? length ps)%nat eqn:E2; cbn [andb].
  - apply Nat.ltb_lt in E1, E2. assert (L : length f = length ps) by lia. rewrite L, Nat.eqb_refl. exists f, ps. repeat split; auto; [lia| |]; left; auto.
  - apply Nat.ltb_ge in E2. destruct ps as [|p0 [|? ?]]; cbn in E2; try congruence; try lia. cbn [at_ nth_error bind]. eexists _, _. split; [reflexivity|].
    rewrite map_length. split; auto. split; [apply Nat.ltb_lt in E1; cbn [length]; lia|]. split; auto. intros i g p Eg Ep. split; [left; auto|]. right.
    rewrite nth_error_map in Ep. destruct (nth_error f i); [|discriminate]. cbn in Ep. congruence.
  - apply Nat.ltb_ge in E1. destruct f as [|f0 [|? ?]]; cbn in E1; try congruence; try lia. cbn [at_ nth_error bind]. eexists _, _. split; [reflexivity|].
    rewrite map_length. split; auto. split; [apply Nat.ltb_lt in E2; cbn [length]; lia|]. split; [destruct ps; [congruence|discriminate]|]. intros i g p Eg Ep. split; [right|left; auto].
    rewrite nth_error_map in Eg. destruct (nth_error ps i); [|discriminate]. cbn in Eg. congruence.
  - apply Nat.ltb_ge in E1, E2. exists f, ps. split; auto. assert (length f <> 0%nat) by (intro X; apply Nf; apply length_zero_iff_nil; auto).
    assert (length ps <> 0%nat) by (intro X; apply Np; apply length_zero_iff_nil; auto). repeat split; auto; [lia|lia|left; auto|left; auto].
Qed.

(** Explicit(f, parameters).eval(x): one row per point; column [i] holds the
    values of rule [i] with parameters [i] *)
Theorem C65_eval f ps (xs : list P) : compatible f ps ->
  exists r R, set_rules f ps = Ok r /\ explicit_eval r xs = Ok R /\ length R = length xs /\
    forall j x row, nth_error xs j = Some x -> nth_error R j = Some row -> length row = Nat.max (length f) (length ps) /\
      forall i, (i < length row)%nat -> exists g p, rule_at f i g /\ rule_at ps i p /\ nth_error row i = Some (g p x).
Proof.
  intro C. destruct (set_rules_paired f ps C) as [f' [ps' [E [L1 [L2 [N H]]]]]]. exists (f', ps'). rewrite (eval_paired f' ps' xs L1 N).
  eexists. split; [exact E|]. split; [reflexivity|]. split; [apply map_length|]. intros j x row Ex Er. rewrite nth_error_map, Ex in Er. cbn in Er. injection Er as <-.
  rewrite map_length, combine_length. split; [lia|]. intros i Hi.
  destruct (nth_error f' i) as [g|] eqn:Eg; [|apply nth_error_None in Eg; lia]. destruct (nth_error ps' i) as [p|] eqn:Ep; [|apply nth_error_None in Ep; lia].
  exists g, p. destruct (H i g p Eg Ep) as [H1 H2]. split; auto. split; auto. rewrite nth_error_map.
  assert (Z : nth_error (combine f' ps') i = Some (g, p)).
  { clear -Eg Ep. revert f' ps' Eg Ep. induction i as [|i IH]; intros [|u l] [|w m] K1 K2; cbn in *; try discriminate; [congruence|]. apply IH; auto. }
  rewrite Z. reflexivity.
Qed.
(** lists that do not fit are refused *)
Theorem C65_incompatible f ps : f <> [] -> ps <> [] -> ~ compatible f ps -> set_rules f ps = Err AssertionError.
Proof.
  intros Nf Np C. assert (length f <> length ps /\ length f <> 1%nat /\ length ps <> 1%nat) as [H1 [H2 H3]] by (repeat split; intro X; apply C; repeat split; auto).
  unfold set_rules. assert (length f <> 0%nat) by (intro X; apply Nf; apply length_zero_iff_nil; auto). assert (length ps <> 0%nat) by (intro X; apply Np; apply length_zero_iff_nil; auto).
  destruct (1 <? length f)%nat eqn:E1; [|apply Nat.ltb_ge in E1; lia]. destruct (1 <? length ps)%nat eqn:E2; [|apply Nat.ltb_ge in E2; lia]. cbn [andb].
  apply Nat.eqb_neq in H1. rewrite H1. reflexivity.
Qed.

(** rules after any number of changes: set_rules, then add_rule and set_parameters *)
Inductive rules_history : list (K -> P -> Q) * list K -> Prop :=
| rh_set f ps r : compatible f ps -> set_rules f ps = Ok r -> rules_history r
| rh_add r g p : rules_history r -> rules_history (add_rule g p r)
| rh_par r p pos r' : rules_history r -> set_parameters p pos r = Ok r' -> rules_history r'.
Lemma history_paired r : rules_history r -> length (fst r) = length (snd r) /\ fst r <> [].
Proof.
  induction 1 as [f ps r C E|r g p _ [IH1 IH2]|r p pos r' _ [IH1 IH2] E].
  - destruct (set_rules_paired f ps C) as [f' [ps' [E' [L1 [_ [N _]]]]]]. rewrite E in E'. injection E' as ->. auto.
  - cbn. rewrite !app_length. cbn. split; [lia|]. destruct (fst r); discriminate.
  - destruct r as [f ps]. unfold set_parameters in E. cbn [fst snd] in *. destruct pos as [k|].
    + destruct (k <? length f)%nat; [|discriminate]. destruct (k <? length ps)%nat; [|discriminate]. injection E as <-. cbn. rewrite set_nth_length. auto.
    + injection E as <-. cbn. rewrite map_length. auto.
Qed.
(** eval does not raise *)
Theorem C65_total r (xs : list P) : rules_history r -> exists R, explicit_eval r xs = Ok R /\ length R = length xs /\
  forall row, In row R -> length row = length (fst r).
Proof.
  intro H. destruct (history_paired r H) as [L N]. destruct r as [f ps]. cbn [fst snd] in *. rewrite (eval_paired f ps xs L N). eexists. split; [reflexivity|].
  split; [apply map_length|]. intros row Hr. apply in_map_iff in Hr. destruct Hr as [x [<- _]]. rewrite map_length, combine_length. lia.
Qed.
(** add_rule adds a last column and changes nothing else *)
Theorem C65_add r g p (xs : list P) R : rules_history r -> explicit_eval r xs = Ok R ->
  exists R', explicit_eval (add_rule g p r) xs = Ok R' /\ length R' = length xs /\
    forall j x row, nth_error xs j = Some x -> nth_error R j = Some row -> nth_error R' j = Some (row ++ [g p x]).
Proof.
  intros H E. pose proof (history_paired _ H) as [L N]. pose proof (history_paired _ (rh_add r g p H)) as [L' N'].
  destruct r as [f ps]. unfold add_rule in *. cbn [fst snd] in *. rewrite (eval_paired f ps xs L N) in E. injection E as <-.
  rewrite (eval_paired (f ++ [g]) (ps ++ [p]) xs L' N'). eexists. split; [reflexivity|]. split; [apply map_length|].
  intros j x row Ex Er. rewrite nth_error_map, Ex in Er. cbn in Er. injection Er as <-. rewrite nth_error_map, Ex. cbn. f_equal.
  clear -L. revert ps L. induction f as [|h f IH]; intros [|q ps] L; try discriminate; cbn; auto. f_equal. apply IH. cbn in L. lia.
Qed.
(** set_parameters(p, pos): column [pos] has the values of its rule with [p], the others are unchanged *)
Theorem C65_parameters r p pos r' (xs : list P) R : rules_history r -> set_parameters p (Some pos) r = Ok r' -> explicit_eval r xs = Ok R ->
  exists R', explicit_eval r' xs = Ok R' /\
    forall j x row, nth_error xs j = Some x -> nth_error R j = Some row -> exists row', nth_error R' j = Some row' /\ length row' = length row /\
      (forall g, nth_error (fst r) pos = Some g -> nth_error row' pos = Some (g p x)) /\
      forall i, i <> pos -> nth_error row' i = nth_error row i.
Proof.
  intros H E ER. pose proof (history_paired _ H) as [L N]. pose proof (history_paired _ (rh_par r p (Some pos) r' H E)) as [L' N'].
  destruct r as [f ps]. unfold set_parameters in E. cbn [fst snd] in *. destruct (pos <? length f)%nat eqn:E1; [|discriminate]. destruct (pos <? length ps)%nat eqn:E2; [|discriminate].
  injection E as <-. cbn [fst snd] in *. apply Nat.ltb_lt in E2.
  rewrite (eval_paired f ps xs L N) in ER. injection ER as <-. rewrite (eval_paired f (set_nth pos p ps) xs L' N'). eexists. split; [reflexivity|].
  intros j x row Ex Er. rewrite nth_error_map, Ex in Er. cbn in Er. injection Er as <-. rewrite nth_error_map, Ex. cbn. eexists. split; [reflexivity|].
  rewrite !map_length, !combine_length, set_nth_length. split; auto.
  assert (Z : forall (f : list (K -> P -> Q)) (ps : list K) i, nth_error (map (fun gp => fst gp (snd gp) x) (combine f ps)) i =
    match nth_error f i, nth_error ps i with Some g, Some p => Some (g p x) | _, _ => None end).
  { clear. induction f as [|g f IH]; intros ps i; [destruct i; reflexivity|]. destruct ps as [|p ps]; [destruct i; cbn; [auto|destruct (nth_error f i); auto]|].
    destruct i; cbn; auto. }
  split.
  - intros g Eg. rewrite Z, Eg, nth_set_nth_eq by auto. reflexivity.
  - intros i Ni. rewrite !Z, nth_set_nth_neq by auto. reflexivity.
Qed.
(** set_parameters(p): all columns *)
Theorem C65_parameters_all r p r' (xs : list P) : rules_history r -> set_parameters p None r = Ok r' ->
  explicit_eval r' xs = Ok (map (fun x => map (fun g => g p x) (fst r)) xs).
Proof.
  intros H E. pose proof (history_paired _ H) as [L N]. pose proof (history_paired _ (rh_par r p None r' H E)) as [L' N'].
  destruct r as [f ps]. cbn in E. injection E as <-. cbn [fst snd] in *. rewrite (eval_paired f _ xs L' N'). f_equal. apply map_ext. intro x.
  clear -L. revert ps L. induction f as [|g f IH]; intros [|q ps] L; try discriminate; cbn; auto. f_equal. apply IH. cbn in L. lia.
Qed.
Theorem C65_position r p pos : rules_history r -> ((length (fst r) <= pos)%nat <-> set_parameters p (Some pos) r = Err AssertionError) /\
  ((pos < length (fst r))%nat <-> exists r', set_parameters p (Some pos) r = Ok r').
Proof.
  intro H. pose proof (history_paired _ H) as [L _]. unfold set_parameters. rewrite <- L. destruct (pos <? length (fst r))%nat eqn:E.
  - apply Nat.ltb_lt in E. split; split; intro X; [lia|discriminate|eauto|auto].
  - apply Nat.ltb_ge in E. split; split; intro X; [auto|auto|lia|destruct X; discriminate].
Qed.
(** replacing one rule, set_rules(f, parameters, pos), never works *)
Theorem C65_replace_refuted : forall g p pos r, rules_history r -> ~ exists r', set_rules_pos g p pos r = Ok r'.
Proof. intros g p pos r _ [r' E]. discriminate E. Qed.
(** a constant function is the function whose rules are constant *)
Theorem C65_constant (data : list Q) (k : K) (xs : list P) : data <> [] ->
  exists r, set_rules (map (fun c => fun (_ : K) (_ : P) => c) data) [k] = Ok r /\ explicit_eval r xs = Ok (constant_eval data xs).
Proof.
  intro N. set (f := map (fun c => fun (_ : K) (_ : P) => c) data).
  assert (Nf : f <> []) by (destruct data; [congruence|discriminate]).
  assert (C : compatible f [k]) by (repeat split; [auto|discriminate|auto]).
  destruct (set_rules_paired f [k] C) as [f' [ps' [E [L [Lm [Nf' H]]]]]]. exists (f', ps'). split; auto. rewrite (eval_paired f' ps' xs L Nf'). f_equal.
  unfold constant_eval. apply map_ext. intro x.
  assert (Lf : length f' = length data). { rewrite Lm. unfold f. rewrite map_length. destruct data; [congruence|]. cbn [length]. lia. }
  apply nth_ext with (d := 0) (d' := 0); [rewrite map_length, combine_length; lia|]. intros i Hi. rewrite map_length, combine_length in Hi.
  destruct (nth_error f' i) as [g|] eqn:Eg; [|apply nth_error_None in Eg; lia]. destruct (nth_error ps' i) as [p|] eqn:Ep; [|apply nth_error_None in Ep; lia].
  destruct (H i g p Eg Ep) as [Hg _].
  assert (Z : nth_error (combine f' ps') i = Some (g, p)).
  { clear -Eg Ep. revert f' ps' Eg Ep. induction i as [|i IH]; intros [|u l] [|w m] K1 K2; cbn in *; try discriminate; [congruence|]. apply IH; auto. }
  apply nth_error_nth. rewrite nth_error_map, Z. cbn. f_equal.
  destruct (nth_error data i) as [c|] eqn:Ec; [|apply nth_error_None in Ec; lia]. rewrite (nth_error_nth data i 0 Ec).
  destruct Hg as [Hg|Hg].
  - unfold f in Hg. rewrite nth_error_map, Ec in Hg. cbn in Hg. injection Hg as <-. reflexivity.
  - unfold f in Hg. destruct data as [|c0 [|? ?]]; try discriminate. cbn in Hg. injection Hg as <-. destruct i; [cbn in Ec; congruence|]. destruct i; discriminate.
Qed.
End Rules.
Print Assumptions C65_eval.
Print Assumptions C65_incompatible.
Print Assumptions C65_total.
Print Assumptions C65_add.
Print Assumptions C65_parameters.
Print Assumptions C65_parameters_all.
Print Assumptions C65_position.
Print Assumptions C65_replace_refuted.
Print Assumptions C65_constant.

(** interpolant(dofhandler, subforest_flag) of a function with rules: it agrees
    with the function at the nodes of the submesh *)
Theorem C65_interpolant {K} periodic a b e f sf s0 v0 set_list s v nd (r : list (K -> Q -> Q) * list K) xs :
  vertex_history any_submesh periodic a b e f s0 v0 -> submesh_rooted f sf -> set_order set_list -> rules_history r ->
  interpolant1 periodic e f sf (s0, v0) set_list (explicit_eval r) = Ok (s, v, nd) ->
  (forall g k, In g (fst r) -> In k (snd r) -> respects (g k) /\ (periodic = true -> torn e = false -> g k a == g k b)) ->
  (forall x, In x xs -> exists p k, sub_leaf f sf p /\ position1 e f p k x) ->
  exists R R', nodal_eval1 e f sf s set_list None V0 nd xs = Ok R' /\ explicit_eval r xs = Ok R /\ length R = length xs /\ length R' = length xs /\
    forall j row row' i y, nth_error R j = Some row -> nth_error R' j = Some row' -> nth_error row i = Some y -> nth i row' 0 == y.
Proof.
  intros VH Rt SL H E Hg Hx. unfold interpolant1 in E.
  destruct (distribute_dofs periodic e f sf (s0, v0)) as [[s1 v1]|] eqn:E1; [|discriminate E]. cbn [bind fst snd] in E.
  destruct (make_basis1 f sf s1 set_list) as [B|] eqn:E2; [|discriminate E]. cbn [bind] in E.
  destruct (get_dof_vertices None v1 (map Some (snd B))) as [xv|] eqn:E3; [|discriminate E]. cbn [bind] in E.
  destruct (history_paired r H) as [L N]. destruct r as [fr ps]. cbn [fst snd] in *.
  rewrite (eval_paired fr ps xv L N) in E. cbn [bind] in E. unfold nodal_of_data in E.
  destruct (_ =? _)%nat; [|discriminate E]. cbn [bind] in E. injection E as <- <- <-.
  set (fs := map (fun gp : (K -> Q -> Q) * K => fst gp (snd gp)) (combine fr ps)).
  pose proof (use_make periodic a b e f sf s0 v0 s1 v1 set_list B VH Rt E1 SL E2) as U.
  assert (En : nodal_from1 v1 B fs = Ok (mkNodal B (map (fun x => map (fun gp : (K -> Q -> Q) * K => fst gp (snd gp) x) (combine fr ps)) xv))).
  { unfold nodal_from1. rewrite E3. cbn [bind]. unfold nodal_of_function. f_equal. f_equal. apply map_ext. intro x. unfold fs. rewrite map_map. reflexivity. }
  destruct (C61_interpolates _ _ _ _ _ _ _ _ _ _ set_list fs _ xs U SL En) as [R' [ER [LR HR]]]; auto.
  { intros g H'. unfold fs in H'. apply in_map_iff in H'. destruct H' as [[g0 k0] [<- H']]. apply Hg; [eapply in_combine_l; eauto|eapply in_combine_r; eauto]. }
  exists (map (fun x => map (fun gp : (K -> Q -> Q) * K => fst gp (snd gp) x) (combine fr ps)) xs), R'. split; [exact ER|].
  split; [apply eval_paired; auto|]. split; [apply map_length|]. split; auto. intros j row row' i y Er Er' Ey.
  rewrite nth_error_map in Er. destruct (nth_error xs j) as [x|] eqn:Ex; [|discriminate]. cbn in Er. injection Er as <-.
  rewrite nth_error_map in Ey. destruct (nth_error (combine fr ps) i) as [gp|] eqn:Eg; [|discriminate]. cbn in Ey. injection Ey as <-.
  apply (HR j x row' i (fst gp (snd gp)) Ex Er'). unfold fs. rewrite nth_error_map, Eg. reflexivity.
Qed.
Print Assumptions C65_interpolant.

(** cases: one rule with two parameters; then one more rule *)
Definition xr_r : list (Q -> Q -> Q) * list Q := ok ([], []) (set_rules [fun p x => p * x] [2; 3]).
Example C65_case : rules_history (add_rule (fun p x => x + p) 7 xr_r) /\
  rd (explicit_eval (add_rule (fun p x => x + p) 7 xr_r) [1; 5]) = Ok [[2; 3; 8]; [10; 15; 12]] /\
  rd (bind (set_parameters 10 (Some 1%nat) (add_rule (fun p x => x + p) 7 xr_r)) (fun r => explicit_eval r [1; 5])) = Ok [[2; 10; 8]; [10; 50; 12]].
Proof.
  split; [|split; vm_compute; reflexivity]. apply rh_add. apply (rh_set [fun p x => p * x] [2; 3]); [|reflexivity]. repeat split; try discriminate. auto.
Qed.
Example C65_case_interpolant : rd (bind (interpolant1 false Q1 nx_f None (no_dofs, []) sorted_set (explicit_eval xr_r)) (fun y =>
  nodal_eval1 Q1 nx_f None (fst (fst y)) sorted_set None V0 (snd y) [1 # 2; 1 # 3])) = Ok [[1; 3 # 2]; [2 # 3; 1]].
Proof. vm_compute. reflexivity. Qed.
