(** * solve_system computes a solution of the constrained problem *)
From Coq Require Import List Arith Bool QArith Lia Setoid Morphisms Qring.
From Verif Require Import Tree TreeFacts Geom Dof Solver SpecSolver SolverFacts SolverRun SolverElim.
Import ListNotations.
Open Scope Q_scope.

Fixpoint recs (n : nat) (C A : mat) (ks : list nat) : list (list Q) :=
  match ks with
  | [] => []
  | k :: r => map (fun i => entry A i k) (seq 0 n) :: recs n C (cstep n C A k) r
  end.
Lemma fold_steps : forall n C ks A r,
  fold_left (constrain_step n C) ks (A, r) = (csteps n C A ks, r ++ recs n C A ks).
Proof.
  intros n C. induction ks as [|k ks IH]; intros A r; [cbn; rewrite app_nil_r; reflexivity|].
  cbn [fold_left]. change (constrain_step n C (A, r) k) with (cstep n C A k, r ++ [map (fun i => entry A i k) (seq 0 n)]).
  rewrite IH. cbn [recs]. rewrite <- app_assoc. reflexivity.
Qed.
Lemma recs_nth : forall n C p A k r,
  nth_error (recs n C A (p ++ k :: r)) (length p) = Some (map (fun i => entry (csteps n C A p) i k) (seq 0 n)).
Proof. intros n C. induction p as [|h p IH]; intros A k r; [reflexivity|]. cbn [app recs length nth_error]. rewrite IH. reflexivity. Qed.

Lemma scr_ok : forall n s, whole n s -> Forall (in_range n) (l_cons s) ->
  exists d, set_constraint_relation s =
    Ok (mkS (l_dofs s) (l_d2e s) (l_cons s) (l_A s) (l_b s) (l_b_constrained s) (Some (Cmat n (l_cons s))) d
          (l_rec s) (l_inv s) (l_u s)) /\
    (forall i, ~ In i (map c_dof (l_cons s)) -> nth i d 0 = 0) /\
    (forall i, In i (map c_dof (l_cons s)) -> exists c, In c (l_cons s) /\ c_dof c = i /\ nth i d 0 = c_aff c).
Proof.
  intros n s W F. unfold set_constraint_relation. rewrite (whole_n n s W).
  rewrite (triplets_ok n s W F). cbn [bind]. rewrite (eqns_ok n s _ W F). cbn [bind].
  destruct (aff_ok n (l_cons s) (repeat 0 n) (repeat_length 0 n) F) as [d [E [_ [A B]]]].
  exists d. rewrite E. cbn [bind]. split; [reflexivity|]. split; [|exact B].
  intros i N. rewrite (A i N). clear. revert i. induction n; destruct i; cbn; auto.
Qed.

Definition average (n : nat) (A : mat) (nc : nat) : Q :=
  if (nc <? n)%nat then (sum n (fun i => entry A i i) - inject_Z (Z.of_nat nc)) / inject_Z (Z.of_nat (n - nc)) else 1.
Definition scaled (n : nat) (A : mat) (ks : list nat) : mat :=
  tab n n (fun i j => entry A i j * (if mem ks j then average n A (length ks) else 1)).

Lemma cm_ok : forall n s A C, whole n s -> Forall (in_range n) (l_cons s) -> l_A s = Some A -> l_C s = Some C ->
  let ks := map c_dof (l_cons s) in
  constrain_matrix s = Ok (mkS (l_dofs s) (l_d2e s) (l_cons s) (Some (scaled n (csteps n C A ks) ks)) (l_b s)
     (l_b_constrained s) (l_C s) (l_d s) (recs n C A ks) (l_inv s) (l_u s)).
Proof.
  intros n s A C W F EA EC ks. unfold constrain_matrix. rewrite EA, EC, (whole_n n s W).
  rewrite (eqns_ok n s _ W F). cbn [bind]. fold ks. rewrite fold_steps. cbn [fst snd app].
  unfold scaled, average, mem, ks. rewrite map_length. reflexivity.
Qed.

Lemma rhs_inv_ext : forall n C A hs ds d b p v v', veq n v v' ->
  rhs_inv n C A hs ds d b p v -> rhs_inv n C A hs ds d b p v'.
Proof. intros n C A hs ds d b p v v' E I y. rewrite <- (I y). apply dot_ext; [apply veq_refl|apply veq_sym; exact E]. Qed.

Section Whole.
Variables (n : nat) (C A : mat) (hs ds : list constraint).
Hypothesis Hp : proper n hs ds.
Notation HS := (map c_dof hs).
Notation DS := (map c_dof ds).
Hypothesis HC : C = Cmat n (hs ++ ds).

Lemma p_range : Forall (in_range n) (hs ++ ds).
Proof. apply Hp. Qed.
Lemma p_lt : forall k, In k (HS ++ DS) -> (k < n)%nat.
Proof.
  intros k I. rewrite <- map_app in I. apply in_map_iff in I. destruct I as [c [<- I]].
  pose proof p_range as F. rewrite Forall_forall in F. apply F. exact I.
Qed.
Lemma p_dis : forall k, In k HS -> ~ In k DS.
Proof.
  intros k I J. apply in_map_iff in I. apply in_map_iff in J. destruct I as [c [E1 I]]. destruct J as [c' [E2 J]].
  destruct Hp as [_ [_ [_ [_ [_ [_ P]]]]]]. apply (P c c' I J). congruence.
Qed.
Lemma ds_row : forall k x, In k DS -> rowsum (hs ++ ds) k x == 0.
Proof.
  intros k x I. apply rowsum_none. intros c J E. apply in_app_or in J. destruct J as [J|J].
  - exfalso. apply (p_dis k); [|exact I]. rewrite <- E. apply in_map. exact J.
  - destruct Hp as [_ [_ [_ [_ [P _]]]]]. rewrite Forall_forall in P. apply P. exact J.
Qed.
Lemma hs_row : forall c x, In c hs -> rowsum (hs ++ ds) (c_dof c) x == combination x (c_supp c).
Proof.
  intros c x I. rewrite rowsum_app, rowsum_one; [|apply Hp|exact I].
  rewrite rowsum_none; [ring|]. intros c' J E. exfalso.
  destruct Hp as [_ [_ [_ [_ [_ [_ P]]]]]]. apply (P c c' I J). congruence.
Qed.
Lemma comb_ek0 : forall l h, (forall p, In p l -> fst p <> h) -> combination (ek h) l == 0.
Proof.
  induction l as [|p l IH]; intros h N; [reflexivity|]. unfold combination. cbn [map fold_right]. fold (combination (ek h) l).
  rewrite IH by (intros; apply N; right; assumption). unfold ek. destruct (Nat.eqb_spec (fst p) h); [|ring].
  exfalso. apply (N p); [left; reflexivity|assumption].
Qed.
Lemma p_Hh : forall h h', In h HS -> In h' HS -> entry C h h' == 0.
Proof.
  intros h h' I I'.
  assert (L : (h < n)%nat) by (apply p_lt, in_or_app; left; exact I).
  assert (L' : (h' < n)%nat) by (apply p_lt, in_or_app; left; exact I').
  rewrite HC, Cmat_entry; [|exact L|exact L'|exact p_range].
  assert (M : mem (map c_dof (hs ++ ds)) h = true).
  { apply mem_In. rewrite map_app. apply in_or_app. left. exact I. }
  rewrite M. apply in_map_iff in I. destruct I as [c [<- I]]. apply in_map_iff in I'. destruct I' as [c' [<- I']].
  rewrite hs_row by exact I. rewrite comb_ek0; [ring|]. intros p Jp. destruct Hp as [_ [_ [P _]]]. apply (P c c'); assumption.
Qed.
Lemma p_Hd : forall k j, In k DS -> (j < n)%nat -> entry C k j == 0.
Proof.
  intros k j I Hj. assert (L : (k < n)%nat) by (apply p_lt, in_or_app; right; exact I).
  rewrite HC, Cmat_entry; [|exact L|exact Hj|exact p_range].
  assert (M : mem (map c_dof (hs ++ ds)) k = true).
  { apply mem_In. rewrite map_app. apply in_or_app. right. exact I. }
  rewrite M, ds_row by exact I. ring.
Qed.
Lemma C_hs : forall c x, In c hs -> sum n (fun j => entry C (c_dof c) j * x j) == combination x (c_supp c).
Proof.
  intros c x I. assert (L : (c_dof c < n)%nat) by (apply p_lt, in_or_app; left; apply in_map; exact I).
  rewrite HC, Cmat_row; [|exact L|exact p_range]. rewrite hs_row by exact I.
  assert (M : mem (map c_dof (hs ++ ds)) (c_dof c) = true).
  { apply mem_In. rewrite map_app. apply in_or_app. left. apply in_map. exact I. }
  rewrite M. ring.
Qed.
Lemma C_free : forall i x, (i < n)%nat -> ~ In i (HS ++ DS) -> sum n (fun j => entry C i j * x j) == x i.
Proof.
  intros i x L N. rewrite HC, Cmat_row; [|exact L|exact p_range].
  assert (M : mem (map c_dof (hs ++ ds)) i = false).
  { apply mem_notIn. rewrite map_app. exact N. }
  rewrite M, rowsum_none; [ring|]. intros c I E. exfalso. apply N. rewrite <- map_app, <- E. apply in_map. exact I.
Qed.

Variable d : list Q.
Hypothesis d_free : forall i, ~ In i (HS ++ DS) -> nth i d 0 = 0.
Hypothesis d_con : forall i, In i (HS ++ DS) -> exists c, In c (hs ++ ds) /\ c_dof c = i /\ nth i d 0 = c_aff c.
Lemma d_hs : forall h, In h HS -> nth h d 0 == 0.
Proof.
  intros h I. destruct (d_con h) as [c [J [E V]]]; [apply in_or_app; left; exact I|]. rewrite V.
  apply in_app_or in J. destruct J as [J|J].
  - destruct Hp as [_ [_ [_ [P _]]]]. rewrite Forall_forall in P. apply P. exact J.
  - exfalso. apply (p_dis h I). rewrite <- E. apply in_map. exact J.
Qed.
Lemma d_ds : forall c, In c ds -> nth (c_dof c) d 0 == c_aff c.
Proof.
  intros c I. destruct (d_con (c_dof c)) as [c' [J [E V]]]; [apply in_or_app; right; apply in_map; exact I|]. rewrite V.
  apply in_app_or in J. destruct J as [J|J].
  - exfalso. destruct Hp as [_ [_ [_ [_ [_ [_ P]]]]]]. apply (P c' c J I E).
  - destruct Hp as [_ [_ [_ [_ [_ [P _]]]]]]. apply P; assumption.
Qed.

(** ** constrain_rhs *)
Variables (s : lsys) (m : nat) (b : mat).
Hypothesis Ws : whole n s.
Hypothesis Cs : l_cons s = hs ++ ds.
Hypothesis Ds : l_d s = d.
Hypothesis Rs : l_rec s = recs n C A (HS ++ DS).
Hypothesis Hone : one_load b m hs.

Notation inv := (fun j p v => rhs_inv n C A HS DS d (column b j) p v).

Lemma rhs_one : forall p c r bp, hs ++ ds = p ++ c :: r ->
  (forall j, (j < m)%nat -> inv j (map c_dof p) (column bp j)) ->
  exists b', constrain_rhs_step s C m (map c_dof (hs ++ ds)) (bp, length p) c = Ok (b', S (length p)) /\
    shape n m b' = true /\
    (forall j, (j < m)%nat -> inv j (map c_dof (p ++ [c])) (column b' j)).
Proof.
  intros p c r bp E I.
  assert (Ic : In (c_dof c) (HS ++ DS)).
  { rewrite <- map_app, E. apply in_map, in_or_app. right. left. reflexivity. }
  assert (L : (c_dof c < n)%nat) by (apply p_lt; exact Ic).
  unfold constrain_rhs_step. rewrite (whole_eqn n s _ Ws L). cbn [bind fst snd].
  rewrite Rs, Ds, (whole_n n s Ws).
  assert (N : nth_error (recs n C A (HS ++ DS)) (length p) =
     Some (map (fun i => entry (csteps n C A (map c_dof p)) i (c_dof c)) (seq 0 n))).
  { rewrite <- map_app, E, map_app. cbn [map]. rewrite <- (map_length c_dof p). apply recs_nth. }
  rewrite N. clear N.
  assert (Fb : forallb (fun c0 => (c0 <? n)%nat) (map c_dof (hs ++ ds)) = true).
  { apply forallb_forall. intros k Hk. apply Nat.ltb_lt, p_lt. rewrite <- map_app. exact Hk. }
  rewrite Fb. eexists. split; [reflexivity|]. split; [apply shape_tab|].
  intros j Hj.
  apply rhs_inv_ext with (v := rstep C HS DS d (c_dof c) (fun i => entry (csteps n C A (map c_dof p)) i (c_dof c)) (column bp j)).
  - intros i Hi. unfold column. rewrite entry_tab by assumption. rewrite entry_tab by assumption.
    rewrite !entry_tab by assumption. rewrite !nth_map_seq by assumption. unfold rstep. rewrite map_app. reflexivity.
  - rewrite map_app. cbn [map]. destruct (app_split _ _ _ _ _ _ E) as [[q [E1 E2]]|[q [E1 E2]]].
    + apply (rhs_step_h n C A HS DS d) with (q := map c_dof q);
        try first [exact p_lt | exact p_dis | exact p_Hh | exact p_Hd | exact d_hs | exact (proj1 (proj2 Hp))].
      * intros h Ih. destruct hs as [|c1 hs']; [destruct Ih|]. cbn [map tl] in Ih. apply in_map_iff in Ih.
        destruct Ih as [c' [<- Ih]]. apply Hone; [exact Ih|exact Hj].
      * rewrite E1, map_app. reflexivity.
      * apply I. exact Hj.
    + rewrite E1 in *. rewrite map_app. rewrite <- app_assoc.
      apply (rhs_step_d n C A HS DS d) with (q := map c_dof r);
        try first [exact p_lt | exact p_dis | exact p_Hh | exact p_Hd | exact d_hs | exact (proj1 (proj2 Hp))].
      * rewrite E2, map_app. reflexivity.
      * rewrite <- map_app. apply I. exact Hj.
Qed.
Lemma rhs_fold : forall r p bp, hs ++ ds = p ++ r -> shape n m bp = true ->
  (forall j, (j < m)%nat -> inv j (map c_dof p) (column bp j)) ->
  exists b', fold_res (constrain_rhs_step s C m (map c_dof (hs ++ ds))) r (bp, length p) = Ok (b', length (hs ++ ds)) /\
    shape n m b' = true /\
    (forall j, (j < m)%nat -> inv j (map c_dof (hs ++ ds)) (column b' j)).
Proof.
  induction r as [|c r IH]; intros p bp E Sh I.
  - rewrite app_nil_r in E. exists bp. cbn. rewrite E. split; [reflexivity|]. split; [exact Sh|]. exact I.
  - cbn [fold_res]. destruct (rhs_one p c r bp E I) as [b1 [E1 [S1 I1]]]. rewrite E1. cbn [bind].
    replace (S (length p)) with (length (p ++ [c])) by (rewrite app_length; cbn; lia).
    apply IH; [rewrite <- app_assoc; exact E|exact S1|exact I1].
Qed.

(** ** resolve_constraints *)
Lemma resolve_ok : forall u x j, (j < m)%nat ->
  (forall i, (i < n)%nat -> ~ In i (HS ++ DS) -> entry u i j == x i) ->
  forall i, (i < n)%nat -> column (resolve n m C d u) j i == resolved n C HS DS d x i.
Proof.
  intros u x j Hj Hu.
  set (u1 := tab n m (fun i j => if forallb (fun l => Qeq_bool (entry C i l) 0) (seq 0 n) then nth i d 0 else entry u i j)).
  assert (U1 : forall i, (i < n)%nat -> ~ In i HS -> entry u1 i j == Zc HS DS x i + G d (HS ++ DS) i).
  { intros i Hi N. unfold u1. rewrite entry_tab by assumption.
    destruct (in_dec Nat.eq_dec i DS) as [J|J].
    - assert (Z0 : forallb (fun l => Qeq_bool (entry C i l) 0) (seq 0 n) = true).
      { apply forallb_forall. intros l Hl. apply Qeq_bool_iff. apply p_Hd; [exact J|]. apply in_seq in Hl. lia. }
      rewrite Z0, Zc_in by (apply in_or_app; right; exact J). unfold G.
      assert (M : mem (HS ++ DS) i = true) by (apply mem_In, in_or_app; right; exact J). rewrite M. ring.
    - assert (Nf : ~ In i (HS ++ DS)) by (intro K; apply in_app_or in K; tauto).
      destruct (forallb (fun l => Qeq_bool (entry C i l) 0) (seq 0 n)) eqn:Z0.
      + exfalso. rewrite forallb_forall in Z0.
        pose proof (C_free i (ek i) Hi Nf) as Cf. rewrite sum_zero in Cf.
        * unfold ek in Cf. rewrite Nat.eqb_refl in Cf. discriminate.
        * intros l Hl. assert (E0 : entry C i l == 0) by (apply Qeq_bool_iff, Z0, in_seq; lia). rewrite E0. ring.
      + rewrite Zc_out by exact Nf. unfold G. assert (M : mem (HS ++ DS) i = false) by (apply mem_notIn; exact Nf).
        rewrite M, (Hu i Hi Nf). ring. }
  intros i Hi. unfold column, resolve. rewrite entry_tab by assumption. fold u1. unfold resolved, H.
  destruct (mem HS i) eqn:M.
  - apply mem_In in M. rewrite (d_hs i M), Qplus_0_r. apply sum_ext. intros l Hl.
    destruct (in_dec Nat.eq_dec l HS) as [J|J]; [rewrite (p_Hh i l M J); ring|]. rewrite (U1 l Hl J). reflexivity.
  - apply mem_notIn in M. destruct (in_dec Nat.eq_dec i DS) as [J|J].
    + rewrite sum_zero by (intros; rewrite p_Hd by assumption; ring).
      rewrite Zc_in by (apply in_or_app; right; exact J). unfold G.
      assert (M' : mem (HS ++ DS) i = true) by (apply mem_In, in_or_app; right; exact J). rewrite M'. reflexivity.
    + assert (Nf : ~ In i (HS ++ DS)) by (intro K; apply in_app_or in K; tauto).
      rewrite (C_free i (fun l => entry u1 l j) Hi Nf). rewrite (U1 i Hi M), (d_free i Nf). ring.
Qed.

(** the resolved vector solves the constrained problem *)
Lemma resolved_solves : forall j x bfin w, (j < m)%nat ->
  inv j (HS ++ DS) bfin ->
  (forall i, (i < n)%nat -> mulv n (csteps n C A (HS ++ DS)) x i == bfin i) ->
  (forall i, (i < n)%nat -> w i == resolved n C HS DS d x i) ->
  solves n A (column b j) (hs ++ ds) w.
Proof.
  intros j x bfin w Hj I Hx Hw.
  assert (Comb : forall v v' c, In c (hs ++ ds) -> (forall p, In p (c_supp c) -> v (fst p) == v' (fst p)) ->
     combination v (c_supp c) == combination v' (c_supp c)).
  { intros v v' c _. unfold combination. induction (c_supp c) as [|p l IH]; intro E; [reflexivity|]. cbn [map fold_right].
    rewrite IH by (intros; apply E; right; assumption). rewrite (E p) by (left; reflexivity). reflexivity. }
  split.
  - intros c Ic. unfold fulfils. pose proof p_range as F. rewrite Forall_forall in F. destruct (F c Ic) as [L Ls].
    rewrite (Hw _ L). apply in_app_or in Ic. destruct Ic as [Ic|Ic].
    + assert (M : mem HS (c_dof c) = true) by (apply mem_In, in_map; exact Ic).
      unfold resolved at 1. unfold H. rewrite M. rewrite (C_hs c _ Ic).
      destruct Hp as [_ [_ [P2 [P3 _]]]]. rewrite Forall_forall in P3. rewrite (P3 c Ic), Qplus_0_r.
      apply Comb; [apply in_or_app; left; exact Ic|]. intros p Ip. rewrite (Hw _ (Ls p Ip)). unfold resolved, H.
      assert (N : mem HS (fst p) = false).
      { apply mem_notIn. intro J. apply in_map_iff in J. destruct J as [c' [E J]]. apply (P2 c c' p Ic J Ip). congruence. }
      rewrite N. reflexivity.
    + assert (N : mem HS (c_dof c) = false).
      { apply mem_notIn. intro J. apply (p_dis _ J). apply in_map. exact Ic. }
      unfold resolved, H. rewrite N. rewrite Zc_in by (apply in_or_app; right; apply in_map; exact Ic). unfold G.
      assert (M : mem (HS ++ DS) (c_dof c) = true) by (apply mem_In, in_or_app; right; apply in_map; exact Ic).
      rewrite M, (d_ds c Ic). destruct Hp as [_ [_ [_ [_ [P _]]]]]. rewrite Forall_forall in P. rewrite (P c Ic). cbn. ring.
  - intros v Hv. unfold homogeneous in Hv.
    assert (Ev : veq n v (H n C HS (Zc HS DS v))).
    { intros i Hi. unfold H. destruct (mem HS i) eqn:M.
      - apply mem_In in M. pose proof M as M0. apply in_map_iff in M. destruct M as [c [<- Ic]].
        rewrite (C_hs c _ Ic). rewrite (Hv c) by (apply in_or_app; left; exact Ic).
        apply Comb; [apply in_or_app; left; exact Ic|]. intros p Ip.
        destruct (in_dec Nat.eq_dec (fst p) (HS ++ DS)) as [J|J]; [|rewrite Zc_out by exact J; reflexivity].
        rewrite Zc_in by exact J. apply in_app_or in J. destruct J as [J|J].
        + exfalso. apply in_map_iff in J. destruct J as [c' [E J]].
          destruct Hp as [_ [_ [P2 _]]]. apply (P2 c c' p Ic J Ip). congruence.
        + apply in_map_iff in J. destruct J as [c' [E J]]. rewrite <- E. rewrite (Hv c') by (apply in_or_app; right; exact J).
          destruct Hp as [_ [_ [_ [_ [P _]]]]]. rewrite Forall_forall in P. rewrite (P c' J). reflexivity.
      - apply mem_notIn in M. destruct (in_dec Nat.eq_dec i DS) as [J|J].
        + rewrite Zc_in by (apply in_or_app; right; exact J). apply in_map_iff in J. destruct J as [c' [E J]]. rewrite <- E.
          rewrite (Hv c') by (apply in_or_app; right; exact J).
          destruct Hp as [_ [_ [_ [_ [P _]]]]]. rewrite Forall_forall in P. rewrite (P c' J). reflexivity.
        + rewrite Zc_out; [reflexivity|]. intro K. apply in_app_or in K. tauto. }
    rewrite (dot_ext n v _ (mulv n A w) (mulv n A (resolved n C HS DS d x)) Ev)
      by (intros i Hi; apply mulv_ext; exact Hw).
    rewrite (dot_ext n v _ (column b j) (column b j) Ev (veq_refl n _)).
    apply (galerkin n C A HS DS d) with (bfin := bfin); try assumption;
        try first [exact p_lt | exact p_dis | exact p_Hh | exact p_Hd | exact d_hs | exact (proj1 (proj2 Hp))].
Qed.
End Whole.
