(** * Running the assembly *)
From Coq Require Import List Arith Bool QArith Lia.
From Verif Require Import Tree Geom Dof Solver SpecSolver SolverFacts Basis Assemble SpecAssemble AssembleFacts.
Import ListNotations.
Open Scope Q_scope.

(** ** Termination *)
Section Term.
Context (hng : list (nat * list (nat * Q))) (dir : list (nat * Q)).
Definition ends1 (keys : list nat) : Prop :=
  exists N, forall items, map fst items = keys -> forall st out fuel, exists out',
    loop1 hng dir (N + fuel) (items ++ st) out = loop1 hng dir fuel st out'.
Definition ends2 (keys : list (nat * nat)) : Prop :=
  exists N, forall items, map pos items = keys -> forall st out bnd fuel, exists out' bnd',
    loop2 hng dir (N + fuel) (items ++ st) out bnd = loop2 hng dir fuel st out' bnd'.

Lemma ends1_cons : forall k ks, ends1 [k] -> ends1 ks -> ends1 (k :: ks).
Proof.
  intros k ks [N A] [M B]. exists (N + M)%nat. intros [|p items] E; [discriminate|]. cbn in E. injection E as Ek Es. intros st out fuel.
  destruct (A [p]) with (st := items ++ st) (out := out) (fuel := (M + fuel)%nat) as [o1 E1]; [cbn; rewrite Ek; reflexivity|].
  destruct (B items Es st o1 fuel) as [o2 E2]. exists o2. rewrite <- E2, <- E1. f_equal; lia.
Qed.
Lemma ends1_list : forall ks, Forall (fun k => ends1 [k]) ks -> ends1 ks.
Proof.
  induction ks as [|k ks IH]; intros F.
  - exists 0%nat. intros [|] E; [|discriminate]. intros. exists out. reflexivity.
  - inversion F; subst. apply ends1_cons; [assumption|]. apply IH. assumption.
Qed.
Lemma ends2_cons : forall k ks, ends2 [k] -> ends2 ks -> ends2 (k :: ks).
Proof.
  intros k ks [N A] [M B]. exists (N + M)%nat. intros [|p items] E; [discriminate|]. cbn in E. injection E as Ek Es. intros st out bnd fuel.
  destruct (A [p]) with (st := items ++ st) (out := out) (bnd := bnd) (fuel := (M + fuel)%nat) as [o1 [b1 E1]]; [cbn; rewrite Ek; reflexivity|].
  destruct (B items Es st o1 b1 fuel) as [o2 [b2' E2]]. exists o2, b2'. rewrite <- E2, <- E1. f_equal; lia.
Qed.
Lemma ends2_list : forall ks, Forall (fun k => ends2 [k]) ks -> ends2 ks.
Proof.
  induction ks as [|k ks IH]; intros F.
  - exists 0%nat. intros [|] E; [|discriminate]. intros. exists out, bnd. reflexivity.
  - inversion F; subst. apply ends2_cons; [assumption|]. apply IH. assumption.
Qed.

Context (Ac : acyclic hng).
Lemma ends1_one : forall r, ends1 [r].
Proof.
  destruct Ac as [rank Hr].
  assert (X : forall n r, (rank r < n)%nat -> ends1 [r]).
  { induction n as [|n IH]; intros r L; [lia|].
    destruct (lookup r hng) as [supp|] eqn:Eh.
    - destruct (ends1_list (map fst (rev supp))) as [N B].
      { apply Forall_forall. intros k I. apply in_map_iff in I. destruct I as [p [<- I]]. apply in_rev in I.
        apply IH. specialize (Hr (r, supp) p (lookup_in _ _ _ _ Eh) I). cbn in Hr. lia. }
      exists (S N). intros [|[r' q] [|]] E; try discriminate. cbn in E. injection E as ->. intros st out fuel.
      cbn [app plus loop1]. rewrite Eh, rev_append_rev, <- map_rev.
      apply B. rewrite map_map. cbn. reflexivity.
    - exists 1%nat. intros [|[r' q] [|]] E; try discriminate. cbn in E. injection E as ->. intros st out fuel.
      cbn [app plus loop1]. rewrite Eh. destruct (lookup r dir); eexists; reflexivity. }
  intros r. apply (X (S (rank r))). lia.
Qed.
Lemma ends2_one : forall rc, ends2 [rc].
Proof.
  destruct Ac as [rank Hr].
  assert (X : forall n r c, (rank r + rank c < n)%nat -> ends2 [(r, c)]).
  { induction n as [|n IH]; intros r c L; [lia|].
    destruct (lookup r hng) as [supp|] eqn:Eh.
    - destruct (ends2_list (map (fun p => (fst p, c)) (rev supp))) as [N B].
      { apply Forall_forall. intros k I. apply in_map_iff in I. destruct I as [p [<- I]]. apply in_rev in I.
        apply IH. specialize (Hr (r, supp) p (lookup_in _ _ _ _ Eh) I). cbn in Hr. lia. }
      exists (S N). intros [|[[r' c'] q] [|]] E; try discriminate. cbn in E. injection E as -> ->. intros st out bnd fuel.
      cbn [app plus loop2]. rewrite Eh, rev_append_rev, <- map_rev.
      apply B. rewrite map_map. cbn. reflexivity.
    - destruct (lookup r dir) as [g|] eqn:Ed.
      + exists 1%nat. intros [|[[r' c'] q] [|]] E; try discriminate. cbn in E. injection E as -> ->. intros st out bnd fuel.
        cbn [app plus loop2]. rewrite Eh, Ed. eexists. eexists. reflexivity.
      + destruct (lookup c hng) as [supp|] eqn:Ec.
        * destruct (ends2_list (map (fun p => (r, fst p)) (rev supp))) as [N B].
          { apply Forall_forall. intros k I. apply in_map_iff in I. destruct I as [p [<- I]]. apply in_rev in I.
            apply IH. specialize (Hr (c, supp) p (lookup_in _ _ _ _ Ec) I). cbn in Hr. lia. }
          exists (S N). intros [|[[r' c'] q] [|]] E; try discriminate. cbn in E. injection E as -> ->. intros st out bnd fuel.
          cbn [app plus loop2]. rewrite Eh, Ed, Ec, rev_append_rev, <- map_rev.
          apply B. rewrite map_map. cbn. reflexivity.
        * exists 1%nat. intros [|[[r' c'] q] [|]] E; try discriminate. cbn in E. injection E as -> ->. intros st out bnd fuel.
          cbn [app plus loop2]. rewrite Eh, Ed, Ec. destruct (lookup c dir); eexists; eexists; reflexivity. }
  intros [r c]. apply (X (S (rank r + rank c))). lia.
Qed.
Lemma loop1_ends : forall st, exists N, forall fuel out, (N <= fuel)%nat -> exists out', loop1 hng dir fuel st out = Ok out'.
Proof.
  intros st. destruct (ends1_list (map fst st)) as [N B]; [apply Forall_forall; intros; apply ends1_one|].
  exists N. intros fuel out L. destruct (B st eq_refl [] out (fuel - N)%nat) as [o E]. rewrite app_nil_r in E.
  replace (N + (fuel - N))%nat with fuel in E by lia. exists o. rewrite E. destruct (fuel - N)%nat; reflexivity.
Qed.
Lemma loop2_ends : forall st, exists N, forall fuel out bnd, (N <= fuel)%nat -> exists g, loop2 hng dir fuel st out bnd = Ok g.
Proof.
  intros st. destruct (ends2_list (map pos st)) as [N B]; [apply Forall_forall; intros; apply ends2_one|].
  exists N. intros fuel out bnd L. destruct (B st eq_refl [] out bnd (fuel - N)%nat) as [o [b E]]. rewrite app_nil_r in E.
  replace (N + (fuel - N))%nat with fuel in E by lia. exists (o, b). rewrite E. destruct (fuel - N)%nat; reflexivity.
Qed.
End Term.

(** ** Entries of a local form *)
Definition entries0 (f : local) : list Q := match f with Constant v => [v] | _ => [] end.
Definition entries1 (f : local) : list (nat * Q) := match f with Linear t v => combine t v | _ => [] end.
Definition entries2 (f : local) : list (nat * nat * Q) :=
  match f with
  | Bilinear t u M => combine (combine (meshgrid_rows t u) (meshgrid_cols t u)) (reshape_F (length t) (length u) M)
  | _ => []
  end.

Lemma entries0_total : forall f, total (fun q => q) (entries0 f) == constant_local f.
Proof. intros [v|t v|t u M]; cbn; unfold total; cbn; ring. Qed.
Lemma entries1_total : forall v f, total (lin v) (entries1 f) == linear_local v f.
Proof.
  intros v [q|t l|t u M]; cbn [entries1 linear_local]; try reflexivity.
  revert l. induction t as [|a t IH]; intros l; [reflexivity|]. cbn [length]. rewrite sum_shift. destruct l as [|q l].
  - cbn [combine nth]. rewrite total_nil. rewrite sum_zero; [ring|]. intros i _. destruct i; ring.
  - cbn [combine nth]. rewrite total_cons, IH. reflexivity.
Qed.
Lemma combine_app : forall X Y (a a' : list X) (b b' : list Y), length a = length b -> combine (a ++ a') (b ++ b') = combine a b ++ combine a' b'.
Proof. induction a; intros a' [|y b] b' E; try discriminate; [reflexivity|]. cbn in *. rewrite IHa by lia. reflexivity. Qed.
Lemma column_total : forall v x c t (f : nat -> Q) k,
  total (blin v x) (combine (combine t (repeat c (length t))) (map f (seq k (length t)))) ==
  sum (length t) (fun i => v (nth i t 0%nat) * f (k + i)%nat * x c).
Proof.
  intros v x c. induction t as [|a t IH]; intros f k; [reflexivity|]. cbn [length repeat seq map combine]. rewrite total_cons, sum_shift, IH.
  cbn [nth]. unfold blin. cbn [fst snd]. rewrite Nat.add_0_r.
  apply Qplus_comp; [reflexivity|]. apply sum_ext. intros i _. replace (S k + i)%nat with (k + S i)%nat by lia. reflexivity.
Qed.
Lemma entries2_total : forall v x f, total (blin v x) (entries2 f) == bilinear_local v x f.
Proof.
  intros v x [q|t l|t u M]; cbn [entries2 bilinear_local]; try reflexivity.
  rewrite sum_swap. unfold meshgrid_rows, meshgrid_cols, reshape_F.
  assert (G : forall k, total (blin v x) (combine (combine (concat (map (fun _ => t) u)) (concat (map (fun c => repeat c (length t)) u)))
        (concat (map (fun j => map (fun i => entry M i j) (seq 0 (length t))) (seq k (length u))))) ==
      sum (length u) (fun j => sum (length t) (fun i => v (nth i t 0%nat) * entry M i (k + j)%nat * x (nth j u 0%nat)))).
  { induction u as [|c u IH]; intros k; [reflexivity|]. cbn [length map concat seq].
    rewrite combine_app by (rewrite repeat_length; reflexivity).
    rewrite combine_app by (rewrite combine_length, repeat_length, map_length, seq_length; lia).
    rewrite total_app, column_total, sum_shift, IH. apply Qplus_comp.
    - apply sum_ext. intros i _. cbn [nth]. rewrite Nat.add_0_r. reflexivity.
    - apply sum_ext. intros j _. apply sum_ext. intros i _. cbn [nth]. replace (S k + j)%nat with (k + S j)%nat by lia. reflexivity. }
  apply (G 0%nat).
Qed.
Lemma entries1_dofs : forall t v d, length v = length t -> (In d (map fst (entries1 (Linear t v))) <-> In d t).
Proof.
  intros t v d. cbn [entries1]. revert v. induction t as [|a t IH]; intros [|q v] E; try discriminate; [tauto|]. cbn in *. rewrite IH by lia. tauto.
Qed.
Lemma column_pos : forall c t (l : list Q) p, length l = length t -> (In p (map pos (combine (combine t (repeat c (length t))) l)) <-> In (fst p) t /\ snd p = c).
Proof.
  intros c. induction t as [|a t IH]; intros [|q l] [r c'] E; try discriminate; [cbn; tauto|]. cbn [length repeat combine map In]. rewrite IH by (cbn in E; lia).
  unfold pos. cbn [fst snd]. split; [intros [A|A]|intros [[A|A] B]].
  - injection A as -> ->. tauto.
  - tauto.
  - subst. tauto.
  - tauto.
Qed.
Lemma entries2_pos : forall t u M r c, In (r, c) (map pos (entries2 (Bilinear t u M))) <-> In r t /\ In c u.
Proof.
  intros t u M r c. cbn [entries2]. unfold meshgrid_rows, meshgrid_cols, reshape_F. generalize 0%nat at 2 as k.
  induction u as [|c0 u IH]; intros k; [cbn; tauto|]. cbn [length map concat seq].
  rewrite combine_app by (rewrite repeat_length; reflexivity).
  rewrite combine_app by (rewrite combine_length, repeat_length, map_length, seq_length; lia).
  rewrite map_app, in_app_iff, IH, column_pos by (rewrite map_length, seq_length; reflexivity). cbn [fst snd In]. intuition congruence.
Qed.

(** ** Updates on a cell *)
Definition cur {X} (cell : nat) (w : list (nat * list X)) : list X := match lookup cell w with Some l => l | None => [] end.
Definition relw {X} (ent : local -> list X) (k cell : nat) (fs : list local) (w w' : list (nat * list X)) : Prop :=
  cur cell w' = rev (concat (map ent fs)) ++ cur cell w /\
  (forall c, c <> cell -> lookup c w' = lookup c w) /\
  (In k (map kind fs) \/ lookup cell w <> None -> lookup cell w' <> None).
Lemma relw_nil : forall X (ent : local -> list X) k cell w, relw ent k cell [] w w.
Proof. intros. split; [reflexivity|]. split; [reflexivity|]. intros [[]|A]; exact A. Qed.
Lemma relw_skip : forall X (ent : local -> list X) k cell f fs w w', ent f = [] -> kind f <> k ->
  relw ent k cell fs w w' -> relw ent k cell (f :: fs) w w'.
Proof.
  intros X ent k cell f fs w w' E N [A [B C]]. split; [cbn; rewrite E; exact A|]. split; [exact B|].
  intros [[D|D]|D]; apply C; tauto.
Qed.
Lemma relw_step : forall X (ent : local -> list X) k cell f fs w w',
  relw ent k cell fs (store cell (rev_append (ent f) (cur cell w)) w) w' -> relw ent k cell (f :: fs) w w'.
Proof.
  intros X ent k cell f fs w w' [A [B C]]. unfold relw. unfold cur at 2 in A. rewrite lookup_store_same in A. split; [|split].
  - rewrite A. cbn [map concat]. rewrite rev_append_rev, rev_app_distr, <- app_assoc. reflexivity.
  - intros c N. rewrite (B c N). apply lookup_store_other. exact N.
  - intros _. apply C. right. rewrite lookup_store_same. discriminate.
Qed.

Definition rel0 cell fs (o o' : option aform0) : Prop :=
  match o, o' with
  | Some a, Some a' => g0 a' = g0 a /\ relw entries0 0 cell fs (w0 a) (w0 a')
  | None, None => ~ In 0%nat (map kind fs)
  | _, _ => False
  end.
Definition rel1 cell fs (o o' : option aform1) : Prop :=
  match o, o' with
  | Some a, Some a' => g1 a' = g1 a /\ relw entries1 1 cell fs (w1 a) (w1 a')
  | None, None => ~ In 1%nat (map kind fs)
  | _, _ => False
  end.
Definition rel2 cell fs (o o' : option aform2) : Prop :=
  match o, o' with
  | Some a, Some a' => g2 a' = g2 a /\ b2 a' = b2 a /\ relw entries2 2 cell fs (w2 a) (w2 a')
  | None, None => ~ In 2%nat (map kind fs)
  | _, _ => False
  end.

Lemma updates_rel : forall cell fs af af', fold_res (update cell) fs af = Ok af' ->
  rel0 cell fs (af0 af) (af0 af') /\ rel1 cell fs (af1 af) (af1 af') /\ rel2 cell fs (af2 af) (af2 af').
Proof.
  intros cell. induction fs as [|f fs IH]; intros [o0 o1 o2] af' E.
  - cbn in E. injection E as <-. cbn [af0 af1 af2]. split; [|split].
    + destruct o0 as [a|]; cbn; [split; [reflexivity|apply relw_nil]|intros []].
    + destruct o1 as [a|]; cbn; [split; [reflexivity|apply relw_nil]|intros []].
    + destruct o2 as [a|]; cbn; [split; [reflexivity|split; [reflexivity|apply relw_nil]]|intros []].
  - cbn [fold_res] in E. destruct (update cell (mkAF o0 o1 o2) f) as [af1'|] eqn:U; [|discriminate]. cbn [bind] in E.
    destruct (IH _ _ E) as [R0 [R1 R2]]. clear IH E. cbn [af0 af1 af2].
    destruct f as [q|t l|t u M]; cbn [update af0 af1 af2] in U.
    + destruct o0 as [a|]; [|discriminate]. injection U as <-. cbn [af0 af1 af2] in *. split; [|split].
      * unfold rel0 in *. destruct (Assemble.af0 af') as [a'|]; [|exact R0]. destruct R0 as [G R]. split; [exact G|].
        apply relw_step. exact R.
      * unfold rel1 in *. destruct o1, (Assemble.af1 af'); try exact R1; [|intros [D|D]; [discriminate|tauto]].
        destruct R1 as [G R]. split; [exact G|]. apply relw_skip; [reflexivity|discriminate|exact R].
      * unfold rel2 in *. destruct o2, (Assemble.af2 af'); try exact R2; [|intros [D|D]; [discriminate|tauto]].
        destruct R2 as [G [G' R]]. split; [exact G|]. split; [exact G'|]. apply relw_skip; [reflexivity|discriminate|exact R].
    + destruct o1 as [a|]; [|discriminate]. injection U as <-. cbn [af0 af1 af2] in *. split; [|split].
      * unfold rel0 in *. destruct o0, (Assemble.af0 af'); try exact R0; [|intros [D|D]; [discriminate|tauto]].
        destruct R0 as [G R]. split; [exact G|]. apply relw_skip; [reflexivity|discriminate|exact R].
      * unfold rel1 in *. destruct (Assemble.af1 af') as [a'|]; [|exact R1]. destruct R1 as [G R]. split; [exact G|].
        apply relw_step. exact R.
      * unfold rel2 in *. destruct o2, (Assemble.af2 af'); try exact R2; [|intros [D|D]; [discriminate|tauto]].
        destruct R2 as [G [G' R]]. split; [exact G|]. split; [exact G'|]. apply relw_skip; [reflexivity|discriminate|exact R].
    + destruct o2 as [a|]; [|discriminate]. unfold update2 in U. destruct (shape (length t) (length u) M); [|discriminate].
      cbn [bind] in U. injection U as <-. cbn [af0 af1 af2] in *. split; [|split].
      * unfold rel0 in *. destruct o0, (Assemble.af0 af'); try exact R0; [|intros [D|D]; [discriminate|tauto]].
        destruct R0 as [G R]. split; [exact G|]. apply relw_skip; [reflexivity|discriminate|exact R].
      * unfold rel1 in *. destruct o1, (Assemble.af1 af'); try exact R1; [|intros [D|D]; [discriminate|tauto]].
        destruct R1 as [G R]. split; [exact G|]. apply relw_skip; [reflexivity|discriminate|exact R].
      * unfold rel2 in *. destruct (Assemble.af2 af') as [a'|]; [|exact R2]. destruct R2 as [G [G' R]]. split; [exact G|]. split; [exact G'|].
        apply relw_step. exact R.
Qed.
Lemma updates_ok : forall cell fs af, Forall form_shape fs ->
  (In 0%nat (map kind fs) -> af0 af <> None) -> (In 1%nat (map kind fs) -> af1 af <> None) -> (In 2%nat (map kind fs) -> af2 af <> None) ->
  exists af', fold_res (update cell) fs af = Ok af'.
Proof.
  intros cell. induction fs as [|f fs IH]; intros [o0 o1 o2] F K0 K1 K2; [eexists; reflexivity|].
  inversion F; subst. cbn [fold_res]. destruct f as [q|t l|t u M]; cbn [update af0 af1 af2] in *; cbn [map kind In] in K0, K1, K2.
  - destruct o0 as [a|]; [|exfalso; apply K0; [left|]; reflexivity]. cbn [bind]. apply IH; [assumption| | |]; cbn [af0 af1 af2]; intros; [discriminate|apply K1; right; assumption|apply K2; right; assumption].
  - destruct o1 as [a|]; [|exfalso; apply K1; [left|]; reflexivity]. cbn [bind]. apply IH; [assumption| | |]; cbn [af0 af1 af2]; intros; [apply K0; right; assumption|discriminate|apply K2; right; assumption].
  - destruct o2 as [a|]; [|exfalso; apply K2; [left|]; reflexivity]. unfold update2. cbn [form_shape] in H1. rewrite H1. cbn [bind].
    apply IH; [assumption| | |]; cbn [af0 af1 af2]; intros; [apply K0; right; assumption|apply K1; right; assumption|discriminate].
Qed.
