(** * C85: polynomial solutions are found exactly *)
From Coq Require Import List Arith Bool Lia Permutation QArith Qpower Lqa Qfield.
From Verif Require Import Tree Forest SpecForest TreeFacts ForestFacts Geom SpecGeom IntervalFacts Fem SpecFem ShapeFacts Dof SpecDof DofVert SpecDofVert Basis Solver SpecSolver SolverFacts Nodal NodalFacts Nodal1 SpecNodal
  Nodal1Facts Nodal1Main Nodal1Interp Nodal1More Region1 SpecRegion1 Assemble SpecAssemble Kernel SpecKernel Dirichlet1 Prop_Kernel SpecProblem ProblemFacts ProblemMain Prop_Problem SpecExact ExactFacts ElimSolver Prop_Exact.
From Verif Require Prop_Bin Prop_Shape Prop_Assemble Prop_Dof1D.
Import ListNotations.
Open Scope Q_scope.

(** ** rules *)
(** synthetic division *)
Lemma divide c r : exists c' k, (length c' <= pred (length c))%nat /\ forall x, poly c x == (x - r) * poly c' x + k.
Proof.
  induction c as [|a0 c [c' [k [L E]]]]; [exists [], 0; split; [cbn; lia|intros x; cbn; ring]|].
  destruct c as [|a1 c].
  - exists [], a0. split; [cbn; lia|]. intros x. cbn. ring.
  - exists (k :: c'), (a0 + r * k). split; [cbn in *; lia|]. intros x. cbn [poly] in *. rewrite (E x). ring.
Qed.
(** a rule with m different nodes resolves polynomials of degree less than m *)
Lemma roots m : forall c rs, (length c <= m)%nat -> length rs = m -> (forall i j, (i < j < m)%nat -> ~ nth i rs 0 == nth j rs 0) -> (forall r, In r rs -> poly c r == 0) -> forall x, poly c x == 0.
Proof.
  induction m as [|m IH]; intros c rs Lc Lr D Z x; [destruct c; [reflexivity|cbn in Lc; lia]|].
  destruct rs as [|r rs]; [discriminate|]. destruct (divide c r) as [c' [k [L' E]]].
  assert (K : k == 0). { pose proof (Z r (or_introl eq_refl)) as Zr. rewrite E in Zr. lra. }
  assert (Z' : forall y, poly c' y == 0).
  { apply (IH c' rs); [lia|cbn in Lr; lia| |].
    - intros i j Hij. apply (D (S i) (S j)). lia.
    - intros r' I. pose proof (Z r' (or_intror I)) as Zr. rewrite E, K in Zr. apply (In_nth _ _ 0) in I. destruct I as [j [Hj <-]]. pose proof (D 0%nat (S j) ltac:(cbn in Lr; lia)) as Dj. cbn [nth] in Dj.
      assert (P : (nth j rs 0 - r) * poly c' (nth j rs 0) == 0) by lra. apply Qmult_integral in P. destruct P as [P|P]; [exfalso; apply Dj; lra|exact P]. }
  rewrite E, Z', K. ring.
Qed.
Theorem C84_resolves rule m : (m <= length (fst rule))%nat -> (forall i j, (i < j < length (fst rule))%nat -> ~ nth i (fst rule) 0 == nth j (fst rule) 0) -> resolves rule m.
Proof. intros L D c Lc Z. apply (roots (length (fst rule)) c (fst rule)); [lia|reflexivity|exact D|exact Z]. Qed.
Print Assumptions C84_resolves.

Fixpoint moments (j : nat) (c : list Q) : Q := match c with [] => 0 | a :: r => a * (1 / inject_Z (Z.of_nat (S j))) + moments (S j) r end.
Lemma pow_S (t : Q) j : t ^ Z.of_nat (S j) == t ^ Z.of_nat j * t.
Proof. rewrite Nat2Z.inj_succ. unfold Z.succ. rewrite Qpower_plus' by lia. rewrite Qpower_1_r. reflexivity. Qed.
Lemma moments_ok rule m : exact_to rule m -> forall c j, (j + length c <= S m)%nat ->
  total (fun xw => snd xw * (fst xw ^ Z.of_nat j * poly c (fst xw))) (combine (fst rule) (snd rule)) == moments j c.
Proof.
  intros X. induction c as [|c0 c IH]; intros j L; cbn [moments poly].
  - rewrite (tot_ext _ (fun xw => 0 * snd xw)) by (intros; ring). rewrite tot_scal. ring.
  - cbn [length] in L. rewrite (tot_ext _ (fun xw => c0 * (snd xw * fst xw ^ Z.of_nat j) + snd xw * (fst xw ^ Z.of_nat (S j) * poly c (fst xw)))) by (intros; rewrite pow_S; ring).
    rewrite tot_plus, tot_scal, (X j) by lia. rewrite IH by lia. reflexivity.
Qed.
(** ** integration by parts on a cell *)
Lemma by_parts rule d q u l r : exact_to rule (2 * d - 2) -> (1 <= d <= 3)%nat -> cdeg d q -> cdeg d u ->
  total (fun xw => snd xw * (r - l) * (cub_x q (l + (r - l) * fst xw) * cub_x u (l + (r - l) * fst xw) + cub q (l + (r - l) * fst xw) * cub_xx u (l + (r - l) * fst xw))) (combine (fst rule) (snd rule)) ==
  cub q r * cub_x u r - cub q l * cub_x u l.
Proof.
  intros X Hd Dq Du. set (h := r - l). set (c := ccomp q l h). assert (Dc : cdeg d c) by (apply cdeg_comp; exact Dq).
  assert (Cq : forall t, cub q (l + h * t) == cub c t /\ h * cub_x q (l + h * t) == cub_x c t) by (intros t; destruct (cub_comp q l h t) as [C1 [C2 _]]; fold c in C1, C2; split; [rewrite C1; reflexivity|rewrite C2; reflexivity]).
  destruct u as [[[u0 u1] u2] u3]. set (g0 := u1 + 2 * u2 * l + 3 * u3 * l * l). set (g1 := (2 * u2 + 6 * u3 * l) * h). set (g2 := 3 * u3 * h * h).
  assert (Cu : forall t, cub_x (u0, u1, u2, u3) (l + h * t) == g0 + g1 * t + g2 * t * t /\ h * cub_xx (u0, u1, u2, u3) (l + h * t) == g1 + 2 * g2 * t) by (intros t; unfold cub_x, cub_xx, g0, g1, g2; split; ring).
  destruct c as [[[a0 a1] a2] a3] eqn:Ec. set (P1 := a0 * g1 + a1 * g0). set (P2 := a0 * g2 + a1 * g1 + a2 * g0). set (P3 := a1 * g2 + a2 * g1 + a3 * g0). set (P4 := a2 * g2 + a3 * g1). set (P5 := a3 * g2).
  set (D := [P1; 2 * P2; 3 * P3; 4 * P4; 5 * P5]).
  clear Dq. destruct Dc as [A1 [A2 A3]], Du as [B1 [B2 B3]].
  assert (Z : exists D', (length D' <= 2 * d - 1)%nat /\ (forall t, poly D' t == poly D t) /\ moments 0 D' == P1 + P2 + P3 + P4 + P5).
  { assert (d = 1 \/ d = 2 \/ d = 3)%nat as [->|[->| ->]] by lia.
    - assert (G1 : g1 == 0) by (unfold g1; rewrite B2, B3 by lia; ring). assert (G2 : g2 == 0) by (unfold g2; rewrite B3 by lia; ring). pose proof (A2 ltac:(lia)) as Z2. pose proof (A3 ltac:(lia)) as Z3.
      assert (E2 : P2 == 0) by (unfold P2; rewrite G1, G2, Z2; ring). assert (E3 : P3 == 0) by (unfold P3; rewrite G1, G2, Z3; ring). assert (E4 : P4 == 0) by (unfold P4; rewrite G1, G2; ring). assert (E5 : P5 == 0) by (unfold P5; rewrite G2; ring).
      exists [P1]. split; [cbn; lia|]. split; [intros t; unfold D; cbn [poly]; rewrite E2, E3, E4, E5; ring|]. cbn [moments]. rewrite E2, E3, E4, E5. cbn. field.
    - assert (G2 : g2 == 0) by (unfold g2; rewrite B3 by lia; ring). pose proof (A3 ltac:(lia)) as Z3.
      assert (E4 : P4 == 0) by (unfold P4; rewrite G2, Z3; ring). assert (E5 : P5 == 0) by (unfold P5; rewrite G2; ring).
      exists [P1; 2 * P2; 3 * P3]. split; [cbn; lia|]. split; [intros t; unfold D; cbn [poly]; rewrite E4, E5; ring|]. cbn [moments]. rewrite E4, E5. cbn [Z.of_nat inject_Z Pos.of_succ_nat Pos.succ]. field.
    - exists D. split; [cbn; lia|]. split; [reflexivity|]. unfold D. cbn [moments]. cbn [Z.of_nat inject_Z Pos.of_succ_nat Pos.succ]. field. }
  destruct Z as [D' [L' [E' M']]].
  rewrite (tot_ext _ (fun xw => snd xw * (fst xw ^ Z.of_nat 0 * poly D' (fst xw)))).
  - rewrite (moments_ok rule _ X D' 0%nat) by lia. rewrite M'.
    assert (El : l + h * 0 == l) by ring. assert (Er : l + h * 1 == r) by (unfold h; ring).
    rewrite <- (proj1 (cub_proper q _ _ El)), <- (proj1 (cub_proper q _ _ Er)), (proj1 (Cq 0)), (proj1 (Cq 1)).
    rewrite <- (proj1 (proj2 (cub_proper (u0, u1, u2, u3) _ _ El))), <- (proj1 (proj2 (cub_proper (u0, u1, u2, u3) _ _ Er))), (proj1 (Cu 0)), (proj1 (Cu 1)).
    unfold cub, P1, P2, P3, P4, P5. ring.
  - intros [t w] _. cbn [fst snd]. rewrite E'. change (Z.of_nat 0) with 0%Z. cbn [Qpower]. destruct (Cq t) as [C1 C2], (Cu t) as [C3 C4].
    transitivity (w * ((h * cub_x q (l + h * t)) * cub_x (u0, u1, u2, u3) (l + h * t) + cub q (l + h * t) * (h * cub_xx (u0, u1, u2, u3) (l + h * t)))); [ring|]. rewrite C2, C3, C1, C4.
    unfold D, cub, cub_x, P1, P2, P3, P4, P5. cbn [poly]. ring.
Qed.
(** ** summation over the leaves *)
Lemma tele_ring (x y z : Q) : x - y + (z - x) == z - y.
Proof. ring. Qed.
Lemma telescope (h : path -> Q -> Q) b (l : list (path * node itv)) : forall a A Bv, tiles a b (map (fun c => n_data (snd c)) l) -> l <> [] ->
  (forall p n p' n', In (p, n) l -> In (p', n') l -> snd (n_data n) == fst (n_data n') -> h p (snd (n_data n)) == h p' (fst (n_data n'))) ->
  (forall p n, In (p, n) l -> fst (n_data n) == a -> h p (fst (n_data n)) == A) -> (forall p n, In (p, n) l -> snd (n_data n) == b -> h p (snd (n_data n)) == Bv) ->
  total (fun c => h (fst c) (snd (n_data (snd c))) - h (fst c) (fst (n_data (snd c)))) l == Bv - A.
Proof.
  induction l as [|[p0 n0] l IH]; intros a A Bv T NE J ZA ZB; [destruct (NE eq_refl)|]. pose proof (tiles_next a b (p0, n0) l T) as NX. cbn in T. destruct T as [T1 [T2 T3]].
  unfold total. cbn [map qsum fold_right fst snd]. fold (total (fun c : path * node itv => h (fst c) (snd (n_data (snd c))) - h (fst c) (fst (n_data (snd c)))) l).
  pose proof (ZA p0 n0 (or_introl eq_refl) T1) as E0.
  destruct l as [|c1 l]; [destruct NX as [[_ E]|[p [n [[] _]]]]; cbn [snd] in E; unfold total; cbn [map fold_right]; rewrite E0, (ZB p0 n0 (or_introl eq_refl) E); ring|].
  pose proof (IH (snd (n_data n0)) (h p0 (snd (n_data n0))) Bv T3 ltac:(discriminate)) as Q. rewrite Q; [rewrite E0; exact (tele_ring _ _ _)| | |].
  - intros p1 n1 p2 n2 I1 I2. apply J; right; assumption.
  - intros p n I E. symmetry. apply (J p0 n0 p n (or_introl eq_refl) (or_intror I)). symmetry. exact E.
  - intros p n I. apply ZB. right. exact I.
Qed.
Lemma tot_map {X Y} (g : X -> Y) (h : Y -> Q) l : total h (map g l) = total (fun x => h (g x)) l.
Proof. unfold total. rewrite map_map. reflexivity. Qed.
Lemma choose_values (R : nat -> Q -> Prop) n : (forall d, (d < n)%nat -> exists y, R d y) -> exists v : nat -> Q, forall d, (d < n)%nat -> R d (v d).
Proof.
  induction n as [|n IH]; intros H; [exists (fun _ => 0); intros d L; lia|]. destruct IH as [v Hv]; [intros d L; apply H; lia|]. destruct (H n (Nat.lt_succ_diag_r n)) as [y Ry].
  exists (fun d => if (d =? n)%nat then y else v d). intros d L. destruct (Nat.eqb_spec d n) as [->|N]; [exact Ry|apply Hv; lia].
Qed.
Lemma deg_pos e : torn e = false -> (1 <= degree e <= 3)%nat.
Proof. destruct e; cbn; intros E; try discriminate; lia. Qed.

Section Patch.
Context (a b : Q) (e : elem) (f : forest itv) (sf : option flag) (s : dofs) (dv : dverts) (n : nat) (B : list (option nat) * list nat) (lab : Q -> flag -> bool)
  (bases : list deriv) (rule : list Q * list Q) (terms : list term) (ps : list path) (marker : option flag) (df : dir_data) (kappa : Q) (c : list Q).
Context (U : in_use false a b e f sf s dv (seq 0 n) B) (NT : torn e = false)
  (RO : rule_ok rule) (EX : exact_to rule (2 * degree e - 2)) (PO : poisson f sf bases kappa c terms) (LC : (length c <= S (degree e))%nat)
  (PS : forall p, In p ps <-> sub_leaf f sf p) (NP : NoDup ps) (MA : matching a b lab marker df c) (PD : proper_data df).
Notation M := (mkM1 f false lab).
Notation uq := (of_list c).

Lemma uq_poly x : poly c x == cub uq x.
Proof. apply of_list_poly. pose proof (degree_3 e). lia. Qed.
Lemma interpolant : exists v, (forall p k d z, sub_leaf f sf p -> dof_at s p k d -> position1 e f p k z -> v d == poly c z) /\ represents e f sf s v (fun der _ x => cder der uq x).
Proof.
  destruct (choose_values (fun d y => exists p k z, sub_leaf f sf p /\ dof_at s p k d /\ position1 e f p k z /\ y == poly c z) n) as [v Hv].
  { intros d Hd. assert (I : In d (seq 0 n)) by (apply in_seq; lia). apply (use_L U) in I. destruct I as [p [k [Lp Dk]]]. pose proof (slot_lt U p k d Lp Dk) as Lk. destruct Lp as [m [Em Lm]].
    destruct (node_nth e k Lk) as [r [Er _]]. exists (poly c (imap (n_data m) r)), p, k, (imap (n_data m) r). split; [exists m; auto|]. split; [exact Dk|]. split; [exists m, r; auto|reflexivity]. }
  exists v. assert (K : forall p k d z, sub_leaf f sf p -> dof_at s p k d -> position1 e f p k z -> v d == poly c z).
  { intros p k d z Lp Dk Pz. assert (I : In d (seq 0 n)) by (apply (use_L U); exists p, k; auto). apply in_seq in I. destruct (Hv d ltac:(lia)) as [p' [k' [z' [_ [Dk' [Pz' E]]]]]].
    rewrite E, !uq_poly. apply cub_proper. symmetry. apply (same_dof a b e f sf s dv n B U NT _ _ _ _ _ _ _ _ Dk Dk' Pz Pz'). reflexivity. }
  split; [exact K|]. apply cub_rep. intros p Lp. exists uq. split; [apply of_list_deg; exact LC|]. split; [|reflexivity].
  intros k d z Dk Pz. rewrite (K p k d z Lp Dk Pz). symmetry. apply uq_poly.
Qed.
(** one cell *)
Lemma cell_parts v V p m : represents e f sf s v V -> fget f p = Some m -> is_leaf_of sf m ->
  total (fun t : term => match fm_test (fst t), fm_trial (fst t) with
    | Some i, Some j => integral M rule (fm_dmu (fst t)) (fm_flag (fst t)) p (fun x => snd t p x * V (der_of bases i) p x * cder (der_of bases j) uq x)
    | _, _ => 0 end) terms ==
  total (fun t : term => match fm_test (fst t), fm_trial (fst t) with
    | Some i, None => integral M rule (fm_dmu (fst t)) (fm_flag (fst t)) p (fun x => snd t p x * V (der_of bases i) p x)
    | _, _ => 0 end) terms +
  kappa * (V V0 p (snd (n_data m)) * cub_x uq (snd (n_data m)) - V V0 p (fst (n_data m)) * cub_x uq (fst (n_data m))).
Proof.
  intros R Em Lm. destruct PO as [ta [tl [i [j [k [-> [Et [Eu [Ed [Em1 [Ef [Ka [Et2 [Eu2 [Ed2 [Em2 [Ef2 Kl]]]]]]]]]]]]]]]]].
  unfold total. cbn [map fold_right]. rewrite Et, Eu, Et2, Eu2, Ed, Ed2, Em1, Em2, Ef, Ef2. cbn [cder].
  assert (Lp : sub_leaf f sf p) by (exists m; auto). destruct (rep_cub U v V p R Lp) as [q [Dq [_ Eq]]]. destruct (use_leaf_width U p m Em Lm) as [Wd _].
  unfold integral. cbn [m1_cells]. rewrite Em. destruct (n_data m) as [l r] eqn:Edm. cbn [fst snd] in *. cbn [has].
  assert (LA : forall y, l <= y <= r -> leaf_around f sf y p) by (intros y Y; exists m; rewrite Edm; auto).
  rewrite (Eq V0 r), (Eq V0 l) by (apply LA; lra). cbn [cder]. rewrite <- (by_parts rule (degree e) q uq l r EX (deg_pos e NT) Dq (of_list_deg c _ LC)).
  rewrite <- tot_scal. rewrite !Qplus_0_r, Qplus_0_l. rewrite <- tot_plus. apply tot_ext. intros [t w] I. cbn [fst snd].
  assert (T01 : 0 <= t <= 1) by (apply RO; apply (in_combine_l _ _ _ _ I)). set (y := l + (r - l) * t). assert (Ly : leaf_around f sf y p) by (apply LA; unfold y; split; nra).
  rewrite (Ka p y Ly), (Eq (V1 k) y Ly), (Eq V0 y Ly). cbn [cder].
  rewrite (Kl p y (cub_xx uq y) Ly); [ring|]. apply (cub_value (V2 0 0) c uq y). intros z. apply uq_poly.
Qed.
Lemma weak : weak_solution a b e f sf s lab marker df rule bases terms ps (fun der _ x => cder der uq x).
Proof.
  split.
  - intros p x LA Mx. cbn [cder]. destruct (MA x (proj1 Mx)) as [[_ Pr]|[N _]]; [|destruct (N Mx)]. pose proof (uq_poly x) as E. destruct df; cbn in *; rewrite ?E in Pr; exact Pr.
  - intros v V RV VE. unfold bilinear_value, linear_value.
    assert (PM : Permutation ps (map fst (@row f sf))).
    { apply NoDup_Permutation; [exact NP|apply fget_leaves_nodup|]. intros p. rewrite PS. rewrite in_map_iff. split; [intros [m [Em Lm]]; exists (p, m); split; [reflexivity|apply row_in; auto]|intros [[p' m] [<- I]]; apply row_in in I; exists m; exact I]. }
    rewrite !(tot_perm _ _ _ PM), !tot_map.
    rewrite (tot_ext _ (fun x : path * node itv => total (fun t : term => match fm_test (fst t), fm_trial (fst t) with
      | Some i, None => integral M rule (fm_dmu (fst t)) (fm_flag (fst t)) (fst x) (fun y => snd t (fst x) y * V (der_of bases i) (fst x) y)
      | _, _ => 0 end) terms + kappa * (V V0 (fst x) (snd (n_data (snd x))) * cub_x uq (snd (n_data (snd x))) - V V0 (fst x) (fst (n_data (snd x))) * cub_x uq (fst (n_data (snd x)))))).
    2: { intros [p m] I. apply row_in in I. destruct I as [Em Lm]. apply (cell_parts v V p m RV Em Lm). }
    rewrite tot_plus, tot_scal.
    assert (T : total (fun x : path * node itv => V V0 (fst x) (snd (n_data (snd x))) * cub_x uq (snd (n_data (snd x))) - V V0 (fst x) (fst (n_data (snd x))) * cub_x uq (fst (n_data (snd x)))) (@row f sf) == 0 - 0).
    { assert (ZE : forall p x, leaf_around f sf x p -> x == a \/ x == b -> V V0 p x * cub_x uq x == 0).
      { intros p x LA Hx. destruct (MA x Hx) as [[Mx _]|[_ Z]]; [rewrite (VE p x LA Mx); ring|]. pose proof (cub_value (V1 0) c uq x uq_poly) as D. rewrite (Prop_Shape.C31_derivative_unique _ _ _ _ D Z). ring. }
      apply (telescope (fun p x => V V0 p x * cub_x uq x) b (@row f sf) a 0 0 (row_tiles U)).
      - intros E. pose proof (use_ne U) as N. assert (N1 : (0 < n)%nat) by (destruct n; [exfalso; apply N; reflexivity|lia]). assert (I : In 0%nat (seq 0 n)) by (apply in_seq; lia).
        apply (use_L U) in I. destruct I as [p [k [[m [Em Lm]] _]]]. apply (in_nil (a := (p, m))). rewrite <- E. apply row_in. auto.
      - intros p m p' m' I I' E. destruct (row_ends U p m I) as [_ [R1 _]]. destruct (row_ends U p' m' I') as [R2 _]. rewrite (continuous U v V p p' _ _ NT RV R1 R2 E). rewrite (proj1 (proj2 (cub_proper uq _ _ E))). reflexivity.
      - intros p m I E. destruct (row_ends U p m I) as [R1 _]. apply (ZE p _ R1). left. exact E.
      - intros p m I E. destruct (row_ends U p m I) as [_ [R1 _]]. apply (ZE p _ R1). right. exact E. }
    rewrite T. ring.
Qed.
End Patch.

(** The problem - kappa u'' = g with a polynomial solution of the degree of the element: if the rule
    is exact up to the degree 2 (degree - 1), then assembly and solve return the nodal values of u, on
    every mesh *)
Theorem C85_exact a b e f sf s dv n B lab bases rule terms ps marker df solver order keep d0 kappa c :
  in_use false a b e f sf s dv (seq 0 n) B -> (forall d, (d < n)%nat -> has_vertex dv d) -> torn e = false ->
  rule_ok rule -> positive_weights rule -> resolves rule (degree e) -> exact_to rule (2 * degree e - 2) ->
  Forall (term_ok e (mkM1 f false lab) sf s bases) terms -> 0 < kappa -> poisson f sf bases kappa c terms -> (length c <= S (degree e))%nat ->
  (forall p, In p ps <-> sub_leaf f sf p) -> NoDup ps -> (exists x, marked_end a b lab marker x) -> matching a b lab marker df c -> df <> DSame -> proper_data df ->
  exact_spsolve solver -> complete_spsolve solver -> lists_sets order -> SpecAssemble.canonical order ->
  (d0 < n)%nat -> (forall z, ~ conditioned a b e f sf s lab marker true d0 z) ->
  exists dir cells N, add_dirichlet1 e (mkM1 f false lab) s dv marker df true sf [] = Ok dir /\
    problem_cells e (mkM1 f false lab) s bases rule (map fst terms) ps = Ok cells /\
    forall fuel, (N <= fuel)%nat -> exists af ar u,
      assemble order [] dir fuel keep cells (init_forms (map (fun t => form_dim (fst t)) terms)) = Ok (af, ar) /\
      solve solver (seq 0 n) [] dir ar = Ok u /\ length u = n /\
      forall p k d z, sub_leaf f sf p -> dof_at s p k d -> position1 e f p k z -> nth d u 0 == poly c z.
Proof.
  intros U HV NT RO PW RS EX TK K0 PO LC PS NP ME MA NS PD SE SC LO CO H0 F0.
  assert (EL : elliptic f sf bases terms /\ In 1%nat (map (fun t => form_dim (fst t)) terms)).
  { destruct PO as [ta [tl [i [j [k [-> [Et [Eu [Ed [Em1 [Ef [Ka [Et2 [Eu2 _]]]]]]]]]]]]]]. split; [split|].
    - exists ta, i, k. split; [left; reflexivity|]. repeat (split; [assumption|]). intros p x LA. rewrite (Ka p x LA). exact K0.
    - intros t i' j' [<-|[<-|[]]] E1 E2; [|congruence]. assert (i' = i) by congruence. assert (j' = i) by congruence. subst i' j'. split; [reflexivity|]. intros p x LA. rewrite (Ka p x LA). lra.
    - cbn. right. left. unfold form_dim. rewrite Et2, Eu2. reflexivity. }
  destruct EL as [EL I1]. destruct (C84_solvable a b e f sf s dv n B lab bases rule terms ps marker df solver order keep d0 U HV NT RO PW RS TK EL I1 PS ME NS PD SE SC LO CO H0 F0) as [dir [cells [N [E1 [E2 HN]]]]].
  exists dir, cells, N. split; [exact E1|]. split; [exact E2|]. intros fuel HF. destruct (HN fuel HF) as [af [ar [u [EA [ES [Lu [_ UN]]]]]]]. exists af, ar, u.
  split; [exact EA|]. split; [exact ES|]. split; [exact Lu|]. intros p k d z Lp Dk Pz.
  destruct (interpolant a b e f sf s dv n B c U NT LC) as [v [Hv RV]]. rewrite <- (Hv p k d z Lp Dk Pz). apply (UN v _ RV).
  - eapply weak; eassumption.
  - assert (I : In d (seq 0 n)) by (apply (use_L U); exists p, k; auto). apply in_seq in I. lia.
Qed.
Print Assumptions C85_exact.

(** ** the example of C81-C83: - u'' = 1, u(0) = 0, u(1) = 1, on four cells of the degree two *)
Section PatchCase.
Import Prop_Nodal3.
Definition px_c : list Q := [0; 3 # 2; - (1 # 2)].
Lemma px_leaves_iff p : In p px_ps <-> sub_leaf nx_f None p.
Proof.
  split; [apply px_leaves|]. intros [m [Em Lm]]. assert (E : map fst (@row nx_f None) = px_ps) by (vm_compute; reflexivity). rewrite <- E. apply in_map_iff. exists (p, m). split; [reflexivity|]. apply row_in. auto.
Qed.
Lemma px_nodup : NoDup px_ps.
Proof. unfold px_ps. repeat (constructor; [cbn; intuition discriminate|]). constructor. Qed.
Lemma px_positive : positive_weights px_rule.
Proof. intros w [<-|[<-|[<-|[]]]]; reflexivity. Qed.
Lemma px_resolves : resolves px_rule 2.
Proof. apply C84_resolves; [cbn; lia|]. intros i j H. cbn in H. assert (i = 0 /\ j = 1 \/ i = 0 /\ j = 2 \/ i = 1 /\ j = 2)%nat as [[-> ->]|[[-> ->]|[-> ->]]] by lia; cbn; lra. Qed.
Lemma px_exact : exact_to px_rule 2.
Proof. intros k L. assert (k = 0 \/ k = 1 \/ k = 2)%nat as [->|[->| ->]] by lia; vm_compute; reflexivity. Qed.
Lemma px_poisson : poisson nx_f None [V1 0; V0] 1 px_c px_terms.
Proof.
  exists (px_a, px_one), (px_l, px_one), 0%nat, 1%nat, 0%nat. do 6 (split; [reflexivity|]). split; [intros p x _; reflexivity|]. do 5 (split; [reflexivity|]).
  intros p x y _ [g [G1 G2]]. cbn [snd]. unfold px_one.
  assert (E : forall z, g z == (3 # 2) - z). { intros z. apply (Prop_Shape.C31_derivative_unique (poly px_c) z); [apply G1|]. apply (deriv_cub _ (of_list px_c) 1); [intros w; rewrite (of_list_poly px_c w); [ring|cbn; lia]|cbn; ring]. }
  assert (D : deriv_at g x (- (1))). { apply (deriv_cub _ (3 # 2, - (1), 0, 0) 1); [intros w; rewrite E; unfold cub; ring|unfold cub_x; ring]. }
  rewrite (Prop_Shape.C31_derivative_unique _ _ _ _ G2 D). ring.
Qed.
Lemma px_elliptic : elliptic nx_f None [V1 0; V0] px_terms.
Proof.
  split.
  - exists (px_a, px_one), 0%nat, 0%nat. split; [left; reflexivity|]. do 5 (split; [reflexivity|]). intros p x _. reflexivity.
  - intros t i j [<-|[<-|[]]] E1 E2; cbn in E1, E2; [|discriminate E2]. injection E1 as <-. injection E2 as <-. split; [reflexivity|]. intros p x _. discriminate.
Qed.
Lemma px_marked x : x == 0 \/ x == 1 -> marked_end 0 1 px_lab (Some 4%nat) x.
Proof. intros H. split; [exact H|]. intros g E. injection E as <-. unfold px_lab. cbn [Nat.eqb andb]. destruct H as [H|H]; rewrite (Qred_complete _ _ H); reflexivity. Qed.
Lemma px_matching : matching 0 1 px_lab (Some 4%nat) px_df px_c.
Proof. intros x H. left. split; [apply px_marked; exact H|]. cbn [prescribed px_df px_c poly]. destruct H as [H|H]; rewrite H; reflexivity. Qed.
Example C84_case : exists z Z, represents Q2 nx_f None px_s z Z /\ bilinear_value (mkM1 nx_f false px_lab) px_rule [V1 0; V0] px_terms px_ps Z Z == 1.
Proof.
  exists (fun d => nth d [0; 1 # 2; 1 # 4; 1; 3 # 4; 1 # 8; 3 # 8; 1 # 16; 3 # 16] 0), (fun der _ x => cder der (0, 1, 0, 0) x). split.
  - apply cub_rep. intros p Lp. exists (0, 1, 0, 0). split; [split; [|split]; intros H; cbn in H; try lia; reflexivity|]. split; [|reflexivity].
    intros k d z Dk Pz. apply px_leaves_iff in Lp. destruct Dk as [l [El Hk]]. destruct Pz as [m [r [Em [Er ->]]]]. unfold cub.
    cbn in Lp. destruct Lp as [<-|[<-|[<-|[<-|[]]]]]; vm_compute in El; injection El as <-; vm_compute in Em; injection Em as <-;
    (destruct k as [|[|[|k]]]; [| | |destruct k; discriminate Hk]; vm_compute in Hk; injection Hk as <-; vm_compute in Er; injection Er as <-; vm_compute; reflexivity).
  - vm_compute. reflexivity.
Qed.
Example C85_case : exists N, forall fuel, (N <= fuel)%nat -> exists af ar u,
  assemble Prop_Assemble.sorted_set [] px_dir fuel true px_cells (init_forms [2; 1]%nat) = Ok (af, ar) /\ solve gauss_solver (seq 0 9) [] px_dir ar = Ok u /\
  nth 7 u 0 == 47 # 512.
Proof.
  destruct (C85_exact 0 1 Q2 nx_f None px_s px_dv 9 _ px_lab [V1 0; V0] px_rule px_terms px_ps (Some 4%nat) px_df gauss_solver Prop_Assemble.sorted_set true 1 1 px_c
    px_use px_vertex' eq_refl px_rule_ok px_positive px_resolves px_exact px_ok ltac:(lra) px_poisson ltac:(cbn; lia) px_leaves_iff px_nodup (ex_intro _ 0 (px_marked 0 (or_introl (Qeq_refl 0)))) px_matching ltac:(discriminate) (fun x y E => E)
    gauss_solver_exact gauss_solver_complete Prop_Assemble.sorted_lists Prop_Assemble.sorted_canonical ltac:(lia) (proj2 (proj2 (proj2 C81_case)))) as [dir [cells [N [E1 [E2 HN]]]]].
  assert (dir = px_dir) by (pose proof (proj1 C81_case) as Q; unfold px_M in Q; congruence). assert (cells = px_cells) by (pose proof (proj1 C82_case) as Q; unfold px_M in Q; congruence). subst dir cells.
  exists N. intros fuel HF. destruct (HN fuel HF) as [af [ar [u [EA [ES [_ H]]]]]]. exists af, ar, u. split; [exact EA|]. split; [exact ES|].
  assert (G : exists z, position1 Q2 nx_f [0; 0; 0]%nat 2 z /\ z == 1 # 16) by (eexists; split; [do 2 eexists; split; [vm_compute; reflexivity|split; [vm_compute; reflexivity|reflexivity]]|vm_compute; reflexivity]).
  destruct G as [z [Pz Ez]].
  rewrite (H [0; 0; 0]%nat 2%nat 7%nat z); [cbn [poly px_c]; rewrite Ez; reflexivity|apply px_leaves; cbn; tauto|eexists; split; vm_compute; reflexivity|exact Pz].
Qed.
End PatchCase.
