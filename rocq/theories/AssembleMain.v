(** * Assembled arrays and solutions *)
From Coq Require Import List Arith Bool QArith Lia.
From Verif Require Import Tree TreeFacts Geom Dof Solver SpecSolver SolverFacts SolverRun Basis Assemble SpecAssemble AssembleFacts AssembleRun AssembleCells AssembleArr Prop_DofVert.
Import ListNotations.
Open Scope Q_scope.

Lemma init_clean : forall dims c, clean c (init_forms dims).
Proof.
  intros dims c. unfold init_forms. split; [|split]; cbn [af0 af1 af2]; intros a E.
  - destruct (existsb (Nat.eqb 0) dims); [injection E as <-; reflexivity|discriminate].
  - destruct (existsb (Nat.eqb 1) dims); [injection E as <-; reflexivity|discriminate].
  - destruct (existsb (Nat.eqb 2) dims); [injection E as <-; reflexivity|discriminate].
Qed.
Lemma existsb_dims : forall k dims, existsb (Nat.eqb k) dims = true <-> In k dims.
Proof. intros. rewrite existsb_exists. split; [intros [x [I E]]; apply Nat.eqb_eq in E; subst; exact I|intros I; exists k; rewrite Nat.eqb_refl; tauto]. Qed.
Lemma init_none : forall dims, (af0 (init_forms dims) = None <-> ~ In 0%nat dims) /\ (af1 (init_forms dims) = None <-> ~ In 1%nat dims) /\ (af2 (init_forms dims) = None <-> ~ In 2%nat dims).
Proof.
  intros dims. unfold init_forms. cbn [af0 af1 af2].
  rewrite <- !existsb_dims.
  split; [|split]; [destruct (existsb (Nat.eqb 0) dims)|destruct (existsb (Nat.eqb 1) dims)|destruct (existsb (Nat.eqb 2) dims)];
    (split; [intros Q X; discriminate|intros Q; (reflexivity || (exfalso; apply Q; reflexivity))]).
Qed.
Lemma init_totals : forall dims, t0 (init_forms dims) == 0 /\ (forall v, t1 v (init_forms dims) == 0) /\ (forall v x, t2 v x (init_forms dims) == 0) /\
  (forall d, ~ dofs1 (init_forms dims) d) /\ (forall r c, ~ pos2 (init_forms dims) r c) /\ (forall r, ~ bnd2 (init_forms dims) r).
Proof.
  intros dims. unfold t0, t1, t2, dofs1, pos2, bnd2, init_forms. cbn [af0 af1 af2].
  split; [destruct (existsb _ dims); reflexivity|]. split; [intros; destruct (existsb _ dims); reflexivity|]. split; [intros; destruct (existsb _ dims); reflexivity|].
  split; [|split].
  - intros d [a [E I]]. destruct (existsb _ dims); [injection E as <-; destruct I|discriminate].
  - intros r c [a [E I]]. destruct (existsb _ dims); [injection E as <-; destruct I|discriminate].
  - intros r [a [E I]]. destruct (existsb _ dims); [injection E as <-; destruct I|discriminate].
Qed.

(** ** Dofs of the cells of a Galerkin problem *)
Section Gal.
Context (dims : list nat) (cells : list (nat * list local)) (P : problem dims cells) (Ga : galerkin cells).

Lemma kind_in : forall c k, In c cells -> (In k (map kind (snd c)) <-> In k dims).
Proof. intros c k I. destruct P as [_ F]. rewrite Forall_forall in F. destruct (F c I) as [<- _]. tauto. Qed.
Lemma cell_D : forall c, In c cells -> exists D, forall f, In f (snd c) -> match f with Constant _ => True | Linear t _ => t = D | Bilinear t u _ => t = D /\ u = D end.
Proof. intros c I. unfold galerkin in Ga. rewrite Forall_forall in Ga. destruct (Ga c I) as [D F]. exists D. rewrite Forall_forall in F. exact F. Qed.
Lemma shape_in : forall c f, In c cells -> In f (snd c) -> form_shape f.
Proof. intros c f I J. destruct P as [_ F]. rewrite Forall_forall in F. destruct (F c I) as [_ F']. rewrite Forall_forall in F'. apply F'. exact J. Qed.
Lemma in1_cell : In 1%nat dims -> forall d, in1 cells d <-> cell_dof cells d.
Proof.
  intros K d. split.
  - intros [c [f [p [Ic [If [Ip E]]]]]]. exists c, f. split; [exact Ic|]. split; [exact If|]. subst d.
    destruct f as [q|t v|t u M]; [destruct Ip| |destruct Ip]. cbn. apply (entries1_dofs t v); [exact (shape_in c (Linear t v) Ic If)|]. apply in_map. exact Ip.
  - intros [c [f [Ic [If Id]]]]. destruct (cell_D c Ic) as [D HD].
    assert (I1 : In 1%nat (map kind (snd c))) by (apply kind_in; assumption). apply in_map_iff in I1. destruct I1 as [f1 [Kf If1]].
    destruct f1 as [q|t v|t u M]; try discriminate. assert (Q1 := HD _ If1). cbn in Q1.
    assert (Id' : In d t). { rewrite Q1. specialize (HD _ If). destruct f; [destruct Id|rewrite <- HD; exact Id|destruct HD as [<- _]; exact Id]. }
    apply (entries1_dofs t v) in Id'; [|exact (shape_in c (Linear t v) Ic If1)]. apply in_map_iff in Id'. destruct Id' as [p [Q I]].
    exists c, (Linear t v), p. tauto.
Qed.
Lemma in2_cell : forall r c, in2 cells r c -> cell_dof cells r /\ cell_dof cells c /\ in2 cells r r /\ in2 cells c c.
Proof.
  intros r c [k [f [Ik [If Ip]]]]. destruct (cell_D k Ik) as [D HD]. specialize (HD f If).
  destruct f as [q|t v|t u M]; [destruct Ip|destruct Ip|]. destruct HD as [-> ->]. apply entries2_pos in Ip.
  repeat split.
  - exists k, (Bilinear D D M). cbn. tauto.
  - exists k, (Bilinear D D M). cbn. tauto.
  - exists k, (Bilinear D D M). rewrite entries2_pos. tauto.
  - exists k, (Bilinear D D M). rewrite entries2_pos. tauto.
Qed.
Lemma cell_in2 : In 2%nat dims -> forall d, cell_dof cells d -> in2 cells d d.
Proof.
  intros K d [c [f [Ic [If Id]]]]. destruct (cell_D c Ic) as [D HD].
  assert (I1 : In 2%nat (map kind (snd c))) by (apply kind_in; assumption). apply in_map_iff in I1. destruct I1 as [f1 [Kf If1]].
  destruct f1 as [q|t v|t u M]; try discriminate. assert (Q1 := HD _ If1). cbn in Q1. destruct Q1 as [-> ->].
  assert (Id' : In d D). { specialize (HD _ If). destruct f; [destruct Id|rewrite <- HD; exact Id|destruct HD as [<- _]; exact Id]. }
  exists c, (Bilinear D D M). rewrite entries2_pos. tauto.
Qed.
End Gal.

Lemma free_unconstrained : forall hng dir d d', free_of hng dir d d' -> unconstrained hng dir d'.
Proof. intros hng dir d d' [R N]. split; apply lookup_none; [apply (red_free hng d d' R)|exact N]. Qed.
Lemma unconstrained_free : forall hng dir d, unconstrained hng dir d -> free_of hng dir d d.
Proof. intros hng dir d [A B]. split; [constructor|]; apply lookup_none; assumption. Qed.

(** ** One call of assemble *)
Lemma assembled : forall order hng dir fuel keep dims cells af ar,
  lists_sets order -> problem dims cells -> galerkin cells ->
  assemble order hng dir fuel keep cells (init_forms dims) = Ok (af, ar) ->
  (forall R, r0 ar = Some R -> c_val R == over_cells constant_local cells) /\
  (forall R, r1 ar = Some R -> vector_of cells hng dir R /\ exists l, v_dofs R = order l /\ forall d, In d l <-> exists d0, in1 cells d0 /\ free_of hng dir d0 d) /\
  (forall R, r2 ar = Some R -> matrix_of cells hng dir R /\ exists l l', m_rows R = order l /\ m_cols R = order l' /\
     (forall d, In d l <-> exists d0, in2 cells d0 d0 /\ free_of hng dir d0 d) /\
     (forall d, In d l' <-> exists d0, in2 cells d0 d0 /\ free_of hng dir d0 d) /\
     (m_x0 R <> None <-> exists r r0 c0 c, in2 cells r0 c0 /\ free_of hng dir r0 r /\ red hng c0 c /\ lookup c dir <> None)) /\
  (r0 ar = None <-> ~ In 0%nat dims) /\ (r1 ar = None <-> ~ In 1%nat dims) /\ (r2 ar = None <-> ~ In 2%nat dims).
Proof.
  intros order hng dir fuel keep dims cells af ar O P Ga E. unfold assemble in E.
  destruct (assemble_cells hng dir fuel keep cells (init_forms dims)) as [af'|] eqn:EC; [|discriminate]. cbn [bind] in E.
  destruct (opt_res (consolidate1 order) (af1 af')) as [o1|] eqn:E1; [|discriminate]. cbn [bind] in E.
  destruct (opt_res (consolidate2 order) (af2 af')) as [o2|] eqn:E2; [|discriminate]. cbn [bind] in E. injection E as <- <-. cbn [r0 r1 r2].
  destruct (cells_effect hng dir fuel keep cells _ _ (proj1 P) (fun c _ => init_clean dims (fst c)) EC) as [I0 [I1 [I2 [J1 [J2 [J3 [K0 [K1 K2]]]]]]]].
  destruct (init_totals dims) as [Z0 [Z1 [Z2 [Y1 [Y2 Y3]]]]]. destruct (init_none dims) as [N0 [N1 N2]].
  split; [|split; [|split; [|split; [|split]]]].
  - intros R Q. unfold t0 in I0 at 1. destruct (af0 af') as [a|]; [|discriminate]. injection Q as <-. unfold consolidate0. cbn [c_val].
    rewrite Z0 in I0. change (fold_right Qplus 0 (g0 a)) with (fold_right Qplus 0 (g0 a)). unfold total in I0. rewrite map_id in I0. rewrite I0. ring.
  - intros R ->. destruct (af1 af') as [a|] eqn:Ea; [|discriminate]. cbn [opt_res] in E1.
    destruct (consolidate1 order a) as [R'|] eqn:ER; [|discriminate]. cbn [bind] in E1. injection E1 as ->.
    assert (NE := consolidate1_inv order O a R ER). destruct (consolidate1_ok order O a NE) as [R'' [ER' [D [L T]]]].
    assert (R'' = R) by congruence. subst R''. destruct (O (map fst (g1 a))) as [Nd [S _]].
    assert (DD : forall d, In d (map fst (g1 a)) <-> exists d0, in1 cells d0 /\ free_of hng dir d0 d).
    { intros d. split.
      - intros I. destruct (proj1 (J1 d)) as [B|B]; [exists a; tauto|exfalso; exact (Y1 d B)|exact B].
      - intros B. destruct (proj2 (J1 d)) as [x [Q I]]; [right; exact B|]. rewrite Ea in Q. injection Q as <-. exact I. }
    split; [|exists (map fst (g1 a)); split; [exact D|exact DD]].
    split; [rewrite D; exact Nd|]. split; [|split; [exact L|]].
    + apply Forall_forall. intros d I. rewrite D in I. apply S in I. apply DD in I. destruct I as [d0 [_ F]]. exact (free_unconstrained _ _ _ _ F).
    + intros v Tv. rewrite T. assert (X := I1 v Tv). unfold t1 in X at 1. rewrite Ea, Z1 in X. rewrite X. ring.
  - intros R ->. destruct (af2 af') as [a|] eqn:Ea; [|discriminate]. cbn [opt_res] in E2.
    destruct (consolidate2 order a) as [R'|] eqn:ER; [|discriminate]. cbn [bind] in E2. injection E2 as ->.
    assert (PP : forall r c, In (r, c) (map pos (g2 a)) <-> exists r0 c0, in2 cells r0 c0 /\ free_of hng dir r0 r /\ free_of hng dir c0 c).
    { intros r c. split.
      - intros I. destruct (proj1 (J2 r c)) as [B|B]; [exists a; tauto|exfalso; exact (Y2 r c B)|exact B].
      - intros B. destruct (proj2 (J2 r c)) as [x [Q I]]; [right; exact B|]. rewrite Ea in Q. injection Q as <-. exact I. }
    assert (BB : forall r, In r (map fst (b2 a)) <-> exists r0 c0, in2 cells r0 c0 /\ free_of hng dir r0 r /\ exists c, red hng c0 c /\ lookup c dir <> None).
    { intros r. split.
      - intros I. destruct (proj1 (J3 r)) as [B|B]; [exists a; tauto|exfalso; exact (Y3 r B)|exact B].
      - intros B. destruct (proj2 (J3 r)) as [x [Q I]]; [right; exact B|]. rewrite Ea in Q. injection Q as <-. exact I. }
    assert (RR : forall d, In d (map (fun t => fst (fst t)) (g2 a)) <-> exists d0, in2 cells d0 d0 /\ free_of hng dir d0 d).
    { intros d. split.
      - intros I. apply in_map_iff in I. destruct I as [[[r c] q] [Q I]]. cbn in Q. subst. apply (in_map pos) in I. apply PP in I.
        destruct I as [r0 [c0 [I [F _]]]]. exists r0. split; [apply (in2_cell cells Ga r0 c0 I)|exact F].
      - intros [d0 [I F]]. assert (X : In (d, d) (map pos (g2 a))) by (apply PP; exists d0, d0; tauto).
        apply in_map_iff in X. destruct X as [[[r c] q] [Q X]]. unfold pos in Q. cbn in Q. injection Q as -> ->.
        apply in_map_iff. exists (d, d, q). split; [reflexivity|exact X]. }
    assert (CC : forall d, In d (map (fun t => snd (fst t)) (g2 a)) <-> exists d0, in2 cells d0 d0 /\ free_of hng dir d0 d).
    { intros d. split.
      - intros I. apply in_map_iff in I. destruct I as [[[r c] q] [Q I]]. cbn in Q. subst. apply (in_map pos) in I. apply PP in I.
        destruct I as [r0 [c0 [I [_ F]]]]. exists c0. split; [apply (in2_cell cells Ga r0 c0 I)|exact F].
      - intros [d0 [I F]]. assert (X : In (d, d) (map pos (g2 a))) by (apply PP; exists d0, d0; tauto).
        apply in_map_iff in X. destruct X as [[[r c] q] [Q X]]. unfold pos in Q. cbn in Q. injection Q as -> ->.
        apply in_map_iff. exists (d, d, q). split; [reflexivity|exact X]. }
    assert (NE := consolidate2_inv order O a R ER). destruct (consolidate2_ok order O a NE) as [R'' [ER' [D [D' [L [X0 [X1 T]]]]]]].
    { intros r I. apply BB in I. destruct I as [r0 [c0 [I [F _]]]]. apply RR. exists r0. split; [apply (in2_cell cells Ga r0 c0 I)|exact F]. }
    assert (R'' = R) by congruence. subst R''.
    destruct (O (map (fun t => fst (fst t)) (g2 a))) as [Nd [S _]]. destruct (O (map (fun t => snd (fst t)) (g2 a))) as [Nd' [S' _]].
    split.
    + split; [rewrite D; exact Nd|]. split; [rewrite D'; exact Nd'|]. split; [|split; [|split; [exact L|split; [exact X1|]]]].
      * apply Forall_forall. intros d I. rewrite D in I. apply S in I. apply RR in I. destruct I as [d0 [_ F]]. exact (free_unconstrained _ _ _ _ F).
      * apply Forall_forall. intros d I. rewrite D' in I. apply S' in I. apply CC in I. destruct I as [d0 [_ F]]. exact (free_unconstrained _ _ _ _ F).
      * intros v x Tv Tx. assert (X := I2 v x Tv Tx). unfold t2 in X at 1. rewrite Ea, Z2 in X.
        transitivity (total (blin v x) (g2 a) + total (lin v) (b2 a)); [exact (T v x)|]. rewrite X. ring.
    + exists (map (fun t => fst (fst t)) (g2 a)), (map (fun t => snd (fst t)) (g2 a)). split; [exact D|]. split; [exact D'|]. split; [exact RR|]. split; [exact CC|].
      rewrite <- X0. split.
      * intros NB. destruct (b2 a) as [|p l] eqn:Eb; [congruence|]. assert (I : In (fst p) (map fst (p :: l))) by (left; reflexivity).
        apply BB in I. destruct I as [ra [ca [I [F [c [Rc Nc]]]]]]. exists (fst p), ra, ca, c. tauto.
      * intros [r [ra [ca [c [I [F [Rc Nc]]]]]]] Q. assert (B : In r (map fst (b2 a))) by (apply BB; exists ra, ca; split; [exact I|]; split; [exact F|]; exists c; tauto).
        rewrite Q in B. destruct B.
  - rewrite <- N0, <- K0. destruct (af0 af'); cbn; [split; discriminate|tauto].
  - rewrite <- N1, <- K1. destruct (af1 af'); cbn in E1.
    + destruct (consolidate1 order a); [|discriminate]. cbn in E1. injection E1 as <-. split; discriminate.
    + injection E1 as <-. tauto.
  - rewrite <- N2, <- K2. destruct (af2 af'); cbn in E2.
    + destruct (consolidate2 order a); [|discriminate]. cbn in E2. injection E2 as <-. split; discriminate.
    + injection E2 as <-. tauto.
Qed.

(** ** Success *)
Lemma assemble_ends : forall order hng dir keep dims cells, lists_sets order -> problem dims cells -> galerkin cells -> acyclic hng ->
  Forall (fun k => (k < 3)%nat) dims -> (exists d, cell_dof cells d /\ unconstrained hng dir d) ->
  exists N, forall fuel, (N <= fuel)%nat -> exists r, assemble order hng dir fuel keep cells (init_forms dims) = Ok r.
Proof.
  intros order hng dir keep dims cells O P Ga Ac F3 [d [Cd Ud]].
  destruct (cells_ends hng dir Ac keep cells (init_forms dims)) as [N HN].
  - destruct P as [_ F]. eapply Forall_impl; [|exact F]. intros c [_ X]. exact X.
  - apply P.
  - intros c _. apply init_clean.
  - intros c k I Lk. rewrite (kind_in dims cells P c k I). destruct (init_none dims) as [N0 [N1 N2]].
    assert (Dec : forall k, In k dims \/ ~ In k dims) by (intros j; destruct (in_dec Nat.eq_dec j dims); tauto).
    destruct k as [|[|[|k]]]; [| | |lia]; [rewrite N0; destruct (Dec 0%nat)|rewrite N1; destruct (Dec 1%nat)|rewrite N2; destruct (Dec 2%nat)]; tauto.
  - exists N. intros fuel L. destruct (HN fuel L) as [af' EC]. unfold assemble. rewrite EC. cbn [bind].
    destruct (cells_effect hng dir fuel keep cells _ _ (proj1 P) (fun c _ => init_clean dims (fst c)) EC) as [_ [_ [_ [J1 [J2 [J3 [_ [K1 K2]]]]]]]].
    destruct (init_totals dims) as [_ [_ [_ [Y1 [Y2 Y3]]]]]. destruct (init_none dims) as [_ [N1 N2]].
    assert (Fd := unconstrained_free hng dir d Ud).
    assert (Q1 : exists o, opt_res (consolidate1 order) (af1 af') = Ok o).
    { destruct (af1 af') as [a|] eqn:Ea; [|eexists; reflexivity]. cbn.
      assert (I1 : In 1%nat dims). { destruct (in_dec Nat.eq_dec 1%nat dims) as [I|I]; [exact I|]. apply N1 in I. apply K1 in I. discriminate. }
      destruct (proj2 (J1 d)) as [x [Q I]]; [right; exists d; split; [apply (in1_cell dims cells P Ga I1); exact Cd|exact Fd]|].
      rewrite Ea in Q. injection Q as <-.
      destruct (consolidate1_ok order O a) as [R [E _]]; [intros Z; rewrite Z in I; destruct I|]. rewrite E. eexists. reflexivity. }
    assert (Q2 : exists o, opt_res (consolidate2 order) (af2 af') = Ok o).
    { destruct (af2 af') as [a|] eqn:Ea; [|eexists; reflexivity]. cbn.
      assert (I2 : In 2%nat dims). { destruct (in_dec Nat.eq_dec 2%nat dims) as [I|I]; [exact I|]. apply N2 in I. apply K2 in I. discriminate. }
      assert (W : forall e, (exists d0, in2 cells d0 d0 /\ free_of hng dir d0 e) -> In e (map (fun t => fst (fst t)) (g2 a))).
      { intros e [d0 [I F]]. destruct (proj2 (J2 e e)) as [x [Q J]]; [right; exists d0, d0; tauto|]. rewrite Ea in Q. injection Q as <-.
        apply in_map_iff in J. destruct J as [[[r c] q] [Q J]]. unfold pos in Q. cbn in Q. injection Q as -> ->.
        apply in_map_iff. exists (e, e, q). split; [reflexivity|exact J]. }
      destruct (consolidate2_ok order O a) as [R [E _]].
      - intros Z. assert (X : In d (map (fun t => fst (fst t)) (g2 a))) by (apply W; exists d; split; [apply (cell_in2 dims cells P Ga I2); exact Cd|exact Fd]).
        rewrite Z in X. destruct X.
      - intros r I. apply W. destruct (proj1 (J3 r)) as [B|B]; [exists a; tauto|exfalso; exact (Y3 r B)|].
        destruct B as [ra [ca [J [F _]]]]. exists ra. split; [apply (in2_cell cells Ga ra ca J)|exact F].
      - rewrite E. eexists. reflexivity. }
    destruct Q1 as [o1 ->], Q2 as [o2 ->]. cbn [bind]. eexists. reflexivity.
Qed.

(** ** solve *)
Lemma put_all_ok : forall l u, (forall p, In p l -> (fst p < length u)%nat) -> NoDup (map fst l) ->
  exists u', put_all u l = Ok u' /\ length u' = length u /\ (forall k v, In (k, v) l -> nth k u' 0 = v) /\ (forall k, ~ In k (map fst l) -> nth k u' 0 = nth k u 0).
Proof.
  induction l as [|[k v] l IH]; intros u B N.
  - exists u. split; [reflexivity|]. split; [reflexivity|]. split; [intros k v []|reflexivity].
  - unfold put_all. cbn [fold_res fst snd]. assert (Lk : (k < length u)%nat) by (apply (B (k, v)); left; reflexivity).
    apply Nat.ltb_lt in Lk as Lb. rewrite Lb. cbn [bind]. apply NoDup_cons_iff in N. cbn [map fst] in N. destruct N as [N1 N2].
    destruct (IH (set_nth k v u)) as [u' [E [L [A C]]]]; [intros p I; rewrite set_nth_length; apply B; right; exact I|exact N2|].
    exists u'. split; [exact E|]. split; [rewrite L; apply set_nth_length|]. split.
    + intros k' v' [I|I]; [|apply A; exact I]. injection I as <- <-. rewrite C by exact N1. apply nth_error_nth. apply nth_set_nth_eq. exact Lk.
    + intros k' I. cbn in I. rewrite C by tauto.
      destruct (lt_dec k' (length u)).
      * apply nth_error_nth. rewrite nth_set_nth_neq by tauto. apply nth_error_nth'. assumption.
      * rewrite !nth_overflow; [reflexivity|lia|rewrite set_nth_length; lia].
Qed.
Lemma coo_row : forall m i (b : nat -> Q) l, (forall t, In t l -> (snd (fst t) < m)%nat) ->
  sum m (fun j => coo_entry l i j * b j) == total (fun t => if (fst (fst t) =? i)%nat then snd t * b (snd (fst t)) else 0) l.
Proof.
  intros m i b. induction l as [|[[i0 j0] q] l IH]; intros B.
  - rewrite total_nil. apply sum_zero. intros j Hj. unfold coo_entry. cbn. ring.
  - rewrite total_cons, <- IH by (intros; apply B; right; assumption). assert (Bj := B (i0, j0, q) (or_introl eq_refl)). cbn [fst snd] in *.
    transitivity (sum m (fun j => (if (j0 =? j)%nat then (if (i0 =? i)%nat then q * b j else 0) else 0) + coo_entry l i j * b j)).
    { apply sum_ext. intros j Hj. rewrite coo_cons. cbn [fst snd]. destruct (i0 =? i)%nat, (j0 =? j)%nat; cbn [andb]; ring. }
    rewrite sum_plus, (sum_one m j0); [rewrite Nat.eqb_refl; reflexivity|exact Bj|].
    intros j _ N. destruct (Nat.eqb_spec j0 j); [congruence|reflexivity].
Qed.
Lemma basis_seq : forall n, (0 < n)%nat -> exists bs, basis_init (seq 0 n) = Ok bs /\ forall d, (d < n)%nat -> d2i_index bs d = Ok d.
Proof.
  intros n Hn.
  assert (Lst : last (seq 0 n) 0%nat = (n - 1)%nat). { replace n with (S (n - 1)) at 1 by lia. rewrite seq_S. apply last_last. }
  destruct (C39_index_maps (seq 0 n)) as [bs [E [_ [A _]]]].
  - apply seq_NoDup.
  - destruct n; [lia|discriminate].
  - intros d I. apply in_seq in I. rewrite Lst. lia.
  - exists bs. split; [exact E|]. intros d Hd. destruct (A d) as [i [E1 [Li E2]]]; [apply in_seq; lia|].
    unfold d2i_index. rewrite E1. cbn [bind]. f_equal.
    assert (Es : snd bs = seq 0 n).
    { unfold basis_init in E. destruct (seq 0 n) as [|x l] eqn:Es; [discriminate|]. 
      destruct (fold_res assign_index (x :: l) (repeat None (S (last (x :: l) 0%nat)), 0%nat)); [|discriminate]. cbn [bind] in E. injection E as <-. reflexivity. }
    unfold basis_i2d in E2. rewrite Es in E2. rewrite seq_length in Li.
    rewrite (nth_error_nth' (seq 0 n) 0%nat) in E2 by (rewrite seq_length; exact Li). rewrite seq_nth in E2 by exact Li. injection E2 as <-. reflexivity.
Qed.

(** What solve does on the whole mesh *)
Definition int_values (A : arrays2) (y : mat) : list (nat * Q) := combine (m_rows A) (map (fun i => entry y i 0) (seq 0 (length (m_rows A)))).
Lemma combine_fst : forall X Y (a : list X) (b : list Y), length a = length b -> map fst (combine a b) = a.
Proof. induction a; intros [|y b] E; try discriminate; [reflexivity|]. cbn in *. rewrite IHa by lia. reflexivity. Qed.
Lemma int_fst : forall A y, map fst (int_values A y) = m_rows A.
Proof. intros. apply combine_fst. rewrite map_length, seq_length. reflexivity. Qed.
Lemma int_at : forall A y i, (i < length (m_rows A))%nat -> In (nth i (m_rows A) 0%nat, entry y i 0) (int_values A y).
Proof.
  intros A y i Hi. unfold int_values.
  replace (nth i (m_rows A) 0%nat, entry y i 0) with (nth i (combine (m_rows A) (map (fun i => entry y i 0) (seq 0 (length (m_rows A))))) (0%nat, 0)).
  - apply nth_In. rewrite combine_length, map_length, seq_length. lia.
  - rewrite combine_nth by (rewrite map_length, seq_length; reflexivity). f_equal. rewrite (nth_map_seq _ (fun i => entry y i 0)) by exact Hi; reflexivity.
Qed.

Lemma solve_values : forall solver n cells hng dir ar b A u x0,
  (0 < n)%nat -> well_posed n cells hng dir ->
  r1 ar = Some b -> r2 ar = Some A -> m_x0 A = Some x0 ->
  NoDup (m_rows A) -> (forall d, In d (m_rows A) -> (d < n)%nat /\ unconstrained hng dir d) ->
  length (m_rows A) = length (m_cols A) -> length (v_vec b) = length (m_rows A) -> length x0 = length (m_rows A) ->
  solve solver (seq 0 n) hng dir ar = Ok u ->
  exists y, solver (m_mat A) 1%nat (map (fun i => [nth i (v_vec b) 0 - nth i x0 0]) (seq 0 (length (m_rows A)))) = Some y /\
    length u = n /\ trial_space hng dir (fun i => nth i u 0) /\
    (forall i, (i < length (m_rows A))%nat -> nth (nth i (m_rows A) 0%nat) u 0 == entry y i 0).
Proof.
  intros solver n cells hng dir ar b A u x0 Hn [Wc [Wh [Wd [Nh Nd]]]] Eb EA Ex NR Hr Lrc Lb Lx E.
  unfold solve in E. rewrite Eb, EA, Ex, Lb, Lx, <- Lrc, !Nat.eqb_refl in E. cbn [andb negb] in E.
  destruct (solver (m_mat A) 1%nat _) as [y|]; [|discriminate]. exists y. split; [reflexivity|].
  rewrite seq_length in E. fold (int_values A y) in E.
  destruct (put_all_ok (int_values A y) (repeat 0 n)) as [u1 [E1 [L1 [A1 B1]]]].
  { intros p I. rewrite repeat_length. apply (in_map fst) in I. rewrite int_fst in I. apply Hr. exact I. }
  { rewrite int_fst. exact NR. }
  rewrite E1 in E. cbn [bind] in E. rewrite repeat_length in L1.
  destruct (put_all_ok dir u1) as [u2 [E2 [L2 [A2 B2]]]]; [intros p I; rewrite L1; apply Wd; exact I|exact Nd|].
  rewrite E2 in E. cbn [bind] in E. rewrite L1 in L2.
  destruct (basis_seq n Hn) as [bs [E3 Bs]]. rewrite E3 in E. cbn [bind] in E.
  unfold hanging_node_matrix in E.
  rewrite (map_res_ok _ _ _ (fun h => map (fun p => (fst h, fst p, snd p)) (snd h))) in E.
  2: { intros h Ih. destruct (Wh h Ih) as [Lh Ls]. apply map_res_ok. intros p Ip. rewrite (Bs _ Lh). cbn [bind]. rewrite (Bs _ (proj1 (Ls p Ip))). reflexivity. }
  cbn [bind] in E. set (C := concat (map (fun h => map (fun p => (fst h, fst p, snd p)) (snd h)) hng)) in *. injection E as <-.
  assert (Cl : forall t, In t C -> (snd (fst t) < n)%nat).
  { intros t I. apply in_concat in I. destruct I as [l [Il I]]. apply in_map_iff in Il. destruct Il as [h [<- Ih]]. apply in_map_iff in I. destruct I as [p [<- Ip]]. cbn. apply (Wh h Ih). exact Ip. }
  assert (Row : forall i, sum n (fun j => coo_entry C i j * nth j u2 0) ==
     total (fun h => if (fst h =? i)%nat then combination (fun j => nth j u2 0) (snd h) else 0) hng).
  { intros i. rewrite (coo_row n i (fun j => nth j u2 0) C Cl). unfold C. rewrite total_concat. apply total_ext. intros h _. rewrite total_map. cbn [fst snd].
    destruct (fst h =? i)%nat; [reflexivity|]. apply total_zero. reflexivity. }
  assert (Out : forall i, ~ In i (map fst hng) -> sum n (fun j => coo_entry C i j * nth j u2 0) == 0).
  { intros i Ni. rewrite Row. apply total_zero. intros h Ih. destruct (Nat.eqb_spec (fst h) i); [|reflexivity]. exfalso. apply Ni. subst. apply in_map. exact Ih. }
  assert (Hu : forall i, (i < n)%nat -> nth i (map (fun i => nth i u2 0 + sum n (fun j => coo_entry C i j * nth j u2 0)) (seq 0 n)) 0 =
     nth i u2 0 + sum n (fun j => coo_entry C i j * nth j u2 0)) by (intros i Hi; apply nth_map_seq; exact Hi).
  rewrite ?seq_length.
  set (u := map (fun i => nth i u2 0 + sum n (fun j => coo_entry C i j * nth j u2 0)) (seq 0 n)) in *.
  assert (Free : forall i, (i < n)%nat -> ~ In i (map fst hng) -> nth i u 0 == nth i u2 0) by (intros i Hi Ni; rewrite (Hu i Hi), (Out i Ni); ring).
  split; [unfold u; rewrite map_length, seq_length; reflexivity|]. split.
  - intros c Ic. apply in_app_or in Ic. destruct Ic as [Ic|Ic]; apply in_map_iff in Ic; destruct Ic as [h [<- Ih]]; unfold fulfils; cbn [c_dof c_supp c_aff].
    + destruct (Wh h Ih) as [Lh Ls]. rewrite (Hu _ Lh), (Row (fst h)).
      rewrite B2, B1.
      * rewrite nth_repeat. 
        assert (X : total (fun h0 => if (fst h0 =? fst h)%nat then combination (fun j => nth j u2 0) (snd h0) else 0) hng == combination (fun j => nth j u2 0) (snd h)).
        { clear - Ih Nh. induction hng as [|h0 l IH]; [destruct Ih|]. rewrite total_cons. apply NoDup_cons_iff in Nh. destruct Nh as [N1 N2]. destruct Ih as [->|Ih].
          - rewrite Nat.eqb_refl. rewrite total_zero; [ring|]. intros h1 I1. destruct (Nat.eqb_spec (fst h1) (fst h)) as [Q|Q]; [|reflexivity].
            exfalso. apply N1. rewrite <- Q. apply (in_map fst). exact I1.
          - rewrite (IH N2 Ih). destruct (Nat.eqb_spec (fst h0) (fst h)) as [Q|Q]; [|ring]. exfalso. apply N1. change (In (fst h0) (map fst l)). rewrite Q. apply in_map. exact Ih. }
        rewrite X. unfold combination.
        assert (Y : total (fun p : nat * Q => snd p * nth (fst p) u2 0) (snd h) == total (fun p : nat * Q => snd p * nth (fst p) u 0) (snd h)).
        { apply total_ext. intros p Ip. destruct (Ls p Ip) as [Lp Np]. rewrite (Free _ Lp Np). reflexivity. }
        unfold total in Y. rewrite Y. ring.
      * rewrite int_fst. intros I. apply Hr in I. destruct I as [_ [I _]]. apply I. apply in_map. exact Ih.
      * intros I. apply in_map_iff in I. destruct I as [d [Q I]]. destruct (Wd d I) as [_ N]. apply N. rewrite Q. apply in_map. exact Ih.
    + destruct (Wd h Ih) as [Lh Nhh]. rewrite (Free _ Lh Nhh). rewrite (A2 (fst h) (snd h)) by (destruct h; exact Ih). cbn. ring.
  - intros i Hi. assert (Ii : In (nth i (m_rows A) 0%nat) (m_rows A)) by (apply nth_In; exact Hi).
    destruct (Hr _ Ii) as [Li [Nh' Nd']]. rewrite (Free _ Li Nh'). rewrite B2 by exact Nd'.
    rewrite (A1 _ _ (int_at A y i Hi)). reflexivity.
Qed.

Lemma red_cell : forall n cells hng dir d d', well_posed n cells hng dir -> (d < n)%nat -> red hng d d' -> (d' < n)%nat.
Proof.
  intros n cells hng dir d d' [_ [Wh _]] Hd R. induction R; [exact Hd|]. apply IHR.
  apply lookup_in in H. destruct (Wh _ H) as [_ W]. apply (W p H0).
Qed.

Lemma solution : forall solver order n dims cells hng dir fuel keep af ar u,
  exact_spsolve solver -> lists_sets order -> canonical order ->
  problem dims cells -> In 1%nat dims -> In 2%nat dims -> galerkin cells -> (0 < n)%nat -> well_posed n cells hng dir ->
  assemble order hng dir fuel keep cells (init_forms dims) = Ok (af, ar) ->
  solve solver (seq 0 n) hng dir ar = Ok u ->
  length u = n /\ galerkin_solution cells hng dir (fun i => nth i u 0).
Proof.
  intros solver order n dims cells hng dir fuel keep af ar u Ex O Ca P D1 D2 Ga Hn W E Es.
  destruct (assembled order hng dir fuel keep dims cells af ar O P Ga E) as [_ [Hv [Hm [_ [K1 K2]]]]].
  destruct (r1 ar) as [b|] eqn:Eb; [|exfalso; apply (proj1 K1 eq_refl); exact D1].
  destruct (r2 ar) as [A|] eqn:EA; [|exfalso; apply (proj1 K2 eq_refl); exact D2].
  destruct (Hv b eq_refl) as [[Nv [Fv [Lv Sv]]] [l1 [El1 S1]]].
  destruct (Hm A eq_refl) as [[Nr [Nc [Fr [Fc [Sh [Lx Sm]]]]]] [l2 [l3 [El2 [El3 [S2 [S3 X0]]]]]]].
  assert (Q1 : forall d, In d l1 <-> In d l2).
  { intros d. rewrite S1, S2. split; intros [d0 [I F]]; exists d0; (split; [|exact F]).
    - apply (cell_in2 dims cells P Ga D2). apply (in1_cell dims cells P Ga D1). exact I.
    - apply (in1_cell dims cells P Ga D1). apply (in2_cell cells Ga d0 d0 I). }
  assert (Q2 : forall d, In d l3 <-> In d l2) by (intros d; rewrite S2, S3; tauto).
  assert (Erv : v_dofs b = m_rows A) by (rewrite El1, El2; apply Ca; exact Q1).
  assert (Erc : m_cols A = m_rows A) by (rewrite El3, El2; apply Ca; exact Q2).
  destruct (m_x0 A) as [x0|] eqn:Ex0.
  2: { unfold solve in Es. rewrite Eb, EA, Ex0 in Es. discriminate. }
  assert (Lx' := Lx x0 eq_refl). rewrite Erv in *. rewrite Erc in *.
  destruct (solve_values solver n cells hng dir ar b A u x0) as [y [Ey [Lu [Tu Yu]]]]; try assumption.
  { intros d I. split; [|rewrite Forall_forall in Fr; apply Fr; exact I]. rewrite El2 in I. apply (proj1 (proj2 (O l2))) in I. apply S2 in I. destruct I as [d0 [I [R _]]].
    apply (red_cell n cells hng dir d0 d W); [|exact R]. apply W. apply (in2_cell cells Ga d0 d0 I). }
  { rewrite Erc. reflexivity. }
  split; [exact Lu|]. split; [exact Tu|]. intros v Tv.
  rewrite <- (Sm v (fun i => nth i u 0) Tv Tu), <- (Sv v Tv), <- sum_plus.
  set (rhs := map (fun i => [nth i (v_vec b) 0 - nth i x0 0]) (seq 0 (length (m_rows A)))) in *.
  assert (Sr : shape (length (m_rows A)) 1 rhs = true).
  { unfold shape, rhs. rewrite map_length, seq_length, Nat.eqb_refl. cbn [andb]. apply forallb_forall. intros row I. apply in_map_iff in I. destruct I as [i [<- _]]. reflexivity. }
  destruct (Ex (length (m_rows A)) (m_mat A) rhs y Sh Sr Ey) as [_ Sol].
  apply sum_ext. intros i Hi. assert (Si := Sol i Hi). unfold mulv, column in Si.
  assert (Eb' : entry rhs i 0 = nth i (v_vec b) 0 - nth i x0 0).
  { unfold entry, rhs. rewrite nth_map_seq by exact Hi. reflexivity. }
  rewrite Eb' in Si.
  transitivity (v (nth i (m_rows A) 0%nat) * (sum (length (m_rows A)) (fun j => entry (m_mat A) i j * entry y j 0) + nth i x0 0)).
  - rewrite Qmult_plus_distr_r. apply Qplus_comp; [|reflexivity]. rewrite <- sum_scal. apply sum_ext. intros j Hj. rewrite (Yu j Hj). ring.
  - rewrite Si. ring.
Qed.

Lemma solve_ok : forall solver n cells hng dir ar b A x0,
  (0 < n)%nat -> well_posed n cells hng dir ->
  r1 ar = Some b -> r2 ar = Some A -> m_x0 A = Some x0 ->
  NoDup (m_rows A) -> (forall d, In d (m_rows A) -> (d < n)%nat) ->
  length (m_rows A) = length (m_cols A) -> length (v_vec b) = length (m_rows A) -> length x0 = length (m_rows A) ->
  (forall r, shape (length (m_rows A)) 1 r = true -> solver (m_mat A) 1%nat r <> None) ->
  exists u, solve solver (seq 0 n) hng dir ar = Ok u.
Proof.
  intros solver n cells hng dir ar b A x0 Hn [Wc [Wh [Wd [Nh Nd]]]] Eb EA Ex NR Hr Lrc Lb Lx So.
  unfold solve. rewrite Eb, EA, Ex, Lb, Lx, <- Lrc, !Nat.eqb_refl. cbn [andb negb].
  destruct (solver (m_mat A) 1%nat _) as [y|] eqn:Ey; [|exfalso; refine (So _ _ Ey); unfold shape; rewrite map_length, seq_length, Nat.eqb_refl; apply forallb_forall; intros r I; apply in_map_iff in I; destruct I as [i [<- _]]; reflexivity].
  rewrite seq_length. fold (int_values A y).
  destruct (put_all_ok (int_values A y) (repeat 0 n)) as [u1 [E1 [L1 _]]].
  { intros p I. rewrite repeat_length. apply (in_map fst) in I. rewrite int_fst in I. apply Hr. exact I. }
  { rewrite int_fst. exact NR. }
  rewrite E1. cbn [bind]. rewrite repeat_length in L1.
  destruct (put_all_ok dir u1) as [u2 [E2 _]]; [intros p I; rewrite L1; apply Wd; exact I|exact Nd|].
  rewrite E2. cbn [bind].
  destruct (basis_seq n Hn) as [bs [E3 Bs]]. rewrite E3. cbn [bind]. unfold hanging_node_matrix.
  rewrite (map_res_ok _ _ _ (fun h => map (fun p => (fst h, fst p, snd p)) (snd h))).
  2: { intros h Ih. destruct (Wh h Ih) as [Lh Ls]. apply map_res_ok. intros p Ip. rewrite (Bs _ Lh). cbn [bind]. rewrite (Bs _ (proj1 (Ls p Ip))). reflexivity. }
  cbn [bind]. eexists. reflexivity.
Qed.
