(** * One call of solve_system; the matrix given to the solver *)
From Coq Require Import List Arith Bool QArith Lia Lqa Setoid Morphisms Qring.
From Verif Require Import Tree TreeFacts Geom Dof Solver SpecSolver SolverFacts SolverRun SolverElim SolverMain.
Import ListNotations.
Open Scope Q_scope.

(** ** The first call *)
Lemma first_run : forall n s solver factor A m b hs ds,
  whole n s -> proper n hs ds -> one_load b m hs ->
  l_cons s = hs ++ ds -> l_A s = Some A -> l_C s = None -> l_inv s = None ->
  l_b s = Some (m, b) -> l_b_constrained s = false -> shape n m b = true ->
  let C := Cmat n (hs ++ ds) in
  let ks := map c_dof (hs ++ ds) in
  let A' := scaled n (csteps n C A ks) ks in
  exists d b' ci,
   (forall i, ~ In i ks -> nth i d 0 = 0) /\
   (forall i, In i ks -> exists c, In c (hs ++ ds) /\ c_dof c = i /\ nth i d 0 = c_aff c) /\
   shape n m b' = true /\
   (forall j, (j < m)%nat -> rhs_inv n C A (map c_dof hs) (map c_dof ds) d (column b j) ks (column b' j)) /\
   solve_system solver None factor s =
     match solver A' m b' with
     | None => Err GenericException
     | Some u => Ok (mkS (l_dofs s) (l_d2e s) (hs ++ ds) (Some A') (Some (m, b')) true (Some C) d (recs n C A ks) ci
                       (Some (m, resolve n m C d u)))
     end.
Proof.
  intros n s solver factor A m b hs ds W P One Ec EA EC EI Eb Ef Shb C ks A'.
  pose proof P as [F _].
  destruct s as [sd se sc sA sb sf sC sdd sr si su]. cbn in Ec, EA, EC, EI, Eb, Ef. subst.
  destruct (scr_ok n _ W F) as [d [E1 [D0 D1]]]. cbn in E1, D0, D1.
  fold C in E1. fold ks in D0, D1.
  set (s1 := mkS sd se (hs ++ ds) (Some A) (Some (m, b)) false (Some C) d sr None su) in *.
  assert (W1 : whole n s1) by exact W.
  pose proof (cm_ok n s1 A C W1 F eq_refl eq_refl) as E2. cbv zeta in E2. cbn [l_cons l_dofs l_d2e l_b l_b_constrained l_C l_d l_inv l_u s1] in E2.
  fold ks in E2. fold A' in E2.
  set (s2 := mkS sd se (hs ++ ds) (Some A') (Some (m, b)) false (Some C) d (recs n C A ks) None su) in *.
  assert (Mk : ks = map c_dof hs ++ map c_dof ds) by apply map_app.
  destruct (rhs_fold n C A hs ds P eq_refl d) with (s := s2) (m := m) (b := b) (r := hs ++ ds) (p := @nil constraint) (bp := b)
    as [b' [E3 [S3 I3]]].
  - rewrite <- Mk. exact D0.
  - rewrite <- Mk. exact D1.
  - exact W.
  - reflexivity.
  - reflexivity.
  - unfold s2. cbn [l_rec]. rewrite Mk. reflexivity.
  - exact One.
  - reflexivity.
  - exact Shb.
  - intros j Hj y. reflexivity.
  - exists d, b', (if factor then Some A' else None). split; [exact D0|]. split; [exact D1|]. split; [exact S3|]. split; [exact I3|].
    unfold solve_system. cbn [l_b bind l_C]. rewrite E1. cbn [bind]. fold s1. rewrite E2. cbn [bind].
    fold s2. cbn [s2 l_b_constrained]. unfold constrain_rhs. cbn [s2 l_b l_b_constrained l_C l_cons].
    fold s2. cbn [length] in E3. rewrite E3. cbn [bind fst].
    unfold invert_matrix, resolve_constraints, factor_matrix.
    destruct factor; cbn [l_inv l_A bind l_b l_b_constrained s2 l_dofs l_d2e l_cons l_C l_d l_rec l_u].
    + destruct (solver A' m b') as [u|]; [|reflexivity]. cbn [bind l_C l_u l_d l_dofs l_d2e l_cons l_A l_b l_b_constrained l_rec l_inv].
      unfold n_eqns. cbn [l_dofs]. destruct W as [W _]. cbn in W. rewrite W, seq_length. reflexivity.
    + destruct (solver A' m b') as [u|]; [|reflexivity]. cbn [bind l_C l_u l_d l_dofs l_d2e l_cons l_A l_b l_b_constrained l_rec l_inv].
      unfold n_eqns. cbn [l_dofs]. destruct W as [W _]. cbn in W. rewrite W, seq_length. reflexivity.
Qed.

Definition scale (n : nat) (M : mat) (ks : list nat) (x : vec) : vec :=
  fun i => (if mem ks i then average n M (length ks) else 1) * x i.
Lemma mulv_scaled : forall n M ks x i, (i < n)%nat -> mulv n (scaled n M ks) x i == mulv n M (scale n M ks x) i.
Proof.
  intros n M ks x i Hi. apply sum_ext. intros j Hj. unfold scaled, scale. rewrite entry_tab by assumption. ring.
Qed.

(** ** The matrix of the constrained system is symmetric positive definite *)
Section Spd.
Variables (n : nat) (A : mat) (hs ds : list constraint).
Hypothesis Hp : proper n hs ds.
Notation C := (Cmat n (hs ++ ds)).
Notation HS := (map c_dof hs).
Notation DS := (map c_dof ds).
Notation M := (csteps n C A (HS ++ DS)).

Lemma M_bil : forall y x, bil n M y x ==
  bil n A (H n C HS (Zc HS DS y)) (H n C HS (Zc HS DS x)) + diag_sum n (HS ++ DS) y x.
Proof.
  intros. apply (bil_prefix n C A HS DS); try exact (incl_refl DS);
    try first [exact (p_lt n hs ds Hp) | exact (p_dis n hs ds Hp) | exact (p_Hh n C hs ds Hp eq_refl) | exact (p_Hd n C hs ds Hp eq_refl) | exact (proj1 (proj2 Hp))].
Qed.
Lemma HZ_ek : forall k i, In k (HS ++ DS) -> (i < n)%nat -> H n C HS (Zc HS DS (ek k)) i == 0.
Proof.
  intros k i I Hi. apply H_zero; [exact (p_Hh n C hs ds Hp eq_refl)| |exact Hi]. intros j Hj N.
  destruct (in_dec Nat.eq_dec j (HS ++ DS)) as [J|J]; [rewrite Zc_in by exact J; reflexivity|].
  rewrite Zc_out by exact J. unfold ek. destruct (Nat.eqb_spec j k); [subst; contradiction|reflexivity].
Qed.
Lemma entry_bil : forall N i j, (i < n)%nat -> (j < n)%nat -> entry N i j == bil n N (ek i) (ek j).
Proof. intros. unfold bil. rewrite dot_ek by assumption. rewrite mulv_ek by assumption. reflexivity. Qed.
Lemma diag_ek : forall l i j, (i < n)%nat -> (j < n)%nat -> diag_sum n l (ek i) (ek j) == if (i =? j)%nat && mem l i then 1 else 0.
Proof.
  intros l i j Hi Hj. unfold diag_sum. rewrite (sum_one n i).
  - unfold ek. rewrite Nat.eqb_refl. destruct (mem l i), (Nat.eqb_spec i j); cbn; ring.
  - exact Hi.
  - intros i0 _ N. unfold ek. destruct (Nat.eqb_spec i0 i); [contradiction|]. destruct (mem l i0); ring.
Qed.
Lemma M_col : forall i k, (i < n)%nat -> In k (HS ++ DS) -> entry M i k == if (i =? k)%nat then 1 else 0.
Proof.
  intros i k Hi I. assert (Hk : (k < n)%nat) by (apply (p_lt n hs ds Hp); exact I).
  rewrite entry_bil by assumption. rewrite M_bil, diag_ek by assumption.
  rewrite bil_zero_r by (intros; apply HZ_ek; assumption).
  destruct (Nat.eqb_spec i k); [subst; apply mem_In in I; rewrite I|]; cbn; ring.
Qed.
Lemma M_row : forall k j, (j < n)%nat -> In k (HS ++ DS) -> entry M k j == if (k =? j)%nat then 1 else 0.
Proof.
  intros k j Hj I. assert (Hk : (k < n)%nat) by (apply (p_lt n hs ds Hp); exact I).
  rewrite entry_bil by assumption. rewrite M_bil, diag_ek by assumption.
  rewrite bil_zero_l by (intros; apply HZ_ek; assumption). apply mem_In in I. rewrite I, andb_true_r. ring.
Qed.
Lemma bil_sym : forall y x, symmetric n A -> bil n A y x == bil n A x y.
Proof.
  intros y x S. unfold bil, dot, mulv.
  transitivity (sum n (fun i => sum n (fun j => y i * (entry A i j * x j)))).
  { apply sum_ext. intros. rewrite sum_scal. reflexivity. }
  rewrite sum_swap. apply sum_ext. intros i Hi.
  rewrite <- sum_scal. apply sum_ext. intros j Hj. rewrite (S j i Hj Hi). ring.
Qed.
Lemma scaled_symmetric : symmetric n A -> symmetric n (scaled n M (HS ++ DS)).
Proof.
  intros S i j Hi Hj. unfold scaled. rewrite !entry_tab by assumption.
  destruct (mem (HS ++ DS) i) eqn:Mi, (mem (HS ++ DS) j) eqn:Mj.
  - apply mem_In in Mi. apply mem_In in Mj. rewrite (M_col i j), (M_col j i) by assumption. rewrite (Nat.eqb_sym j i).
    destruct (i =? j)%nat; ring.
  - apply mem_In in Mi. apply mem_notIn in Mj. rewrite (M_row i j), (M_col j i) by assumption.
    destruct (Nat.eqb_spec i j); [subst; contradiction|]. destruct (Nat.eqb_spec j i); [subst; contradiction|]. ring.
  - apply mem_notIn in Mi. apply mem_In in Mj. rewrite (M_col i j), (M_row j i) by assumption.
    destruct (Nat.eqb_spec i j); [subst; contradiction|]. destruct (Nat.eqb_spec j i); [subst; contradiction|]. ring.
  - rewrite !(entry_bil M) by assumption. rewrite !M_bil. rewrite !diag_ek by assumption. rewrite (Nat.eqb_sym j i), Mi, Mj.
    rewrite (bil_sym (H n C HS (Zc HS DS (ek i)))) by exact S. rewrite !andb_false_r. reflexivity.
Qed.

(** x lifted from the free dofs satisfies the homogeneous constraints *)
Lemma HZ_hom : forall x c, In c (hs ++ ds) -> homogeneous (H n C HS (Zc HS DS x)) c.
Proof.
  intros x c Ic. unfold homogeneous. apply in_app_or in Ic. destruct Ic as [Ic|Ic].
  - unfold H at 1. assert (E : mem HS (c_dof c) = true) by (apply mem_In, in_map; exact Ic). rewrite E.
    rewrite (C_hs n C hs ds Hp eq_refl c _ Ic).
    assert (G0 : forall l, (forall p, In p l -> mem HS (fst p) = false) ->
       combination (Zc HS DS x) l == combination (H n C HS (Zc HS DS x)) l).
    { induction l as [|p l IH]; intro A0; [reflexivity|]. unfold combination. cbn [map fold_right].
      fold (combination (Zc HS DS x) l). fold (combination (H n C HS (Zc HS DS x)) l).
      rewrite IH by (intros; apply A0; right; assumption).
      assert (E' : H n C HS (Zc HS DS x) (fst p) = Zc HS DS x (fst p)) by (unfold H; rewrite A0 by (left; reflexivity); reflexivity).
      rewrite E'. reflexivity. }
    apply G0. intros p Ip. apply mem_notIn. intro J. apply in_map_iff in J. destruct J as [c' [E1 J]].
    destruct Hp as [_ [_ [P2 _]]]. apply (P2 c c' p Ic J Ip). congruence.
  - assert (N : mem HS (c_dof c) = false).
    { apply mem_notIn. intro J. apply (p_dis n hs ds Hp _ J). apply in_map. exact Ic. }
    unfold H at 1. rewrite N. rewrite Zc_in by (apply in_or_app; right; apply in_map; exact Ic).
    destruct Hp as [_ [_ [_ [_ [P _]]]]]. rewrite Forall_forall in P. rewrite (P c Ic). reflexivity.
Qed.
Lemma HZ_free : forall x i, ~ In i (HS ++ DS) -> H n C HS (Zc HS DS x) i = x i.
Proof.
  intros x i N. unfold H. assert (E : mem HS i = false) by (apply mem_notIn; intro; apply N, in_or_app; left; assumption).
  rewrite E. apply Zc_out. exact N.
Qed.

Lemma sum_mem : forall l, NoDup l -> (forall k, In k l -> (k < n)%nat) ->
  sum n (fun i => if mem l i then 1 else 0) == inject_Z (Z.of_nat (length l)).
Proof.
  induction l as [|k l IH]; intros N R.
  - cbn. rewrite sum_zero; [reflexivity|]. intros; reflexivity.
  - apply NoDup_cons_iff in N. destruct N as [Nk N].
    transitivity (sum n (fun i => ek k i * 1 + (if mem l i then 1 else 0))).
    + apply sum_ext. intros i Hi. unfold mem. cbn [existsb]. fold (mem l i). unfold ek.
      destruct (Nat.eqb_spec i k); cbn [orb]; [|destruct (mem l i); ring].
      subst. apply mem_notIn in Nk. rewrite Nk. ring.
    + rewrite sum_plus. fold (dot n (ek k) (fun _ => 1)). rewrite dot_ek by (apply R; left; reflexivity).
      rewrite IH; [|exact N|intros; apply R; right; assumption]. cbn [length]. rewrite Nat2Z.inj_succ.
      unfold Z.succ. rewrite inject_Z_plus. unfold inject_Z at 3. ring.
Qed.
Lemma sum_nonneg : forall m f, (forall i, (i < m)%nat -> 0 <= f i) -> 0 <= sum m f.
Proof.
  induction m; intros f P; [cbn; lra|]. rewrite sum_S. assert (0 <= f m) by (apply P; lia).
  assert (0 <= sum m f) by (apply IHm; intros; apply P; lia). lra.
Qed.
Lemma sum_pos : forall m f, (forall i, (i < m)%nat -> 0 <= f i) -> (exists i, (i < m)%nat /\ 0 < f i) -> 0 < sum m f.
Proof.
  induction m; intros f P [i [Hi Pi]]; [lia|]. rewrite sum_S.
  assert (NN : 0 <= sum m f).
  { clear - P. induction m; [cbn; lra|]. rewrite sum_S. assert (0 <= f m) by (apply P; lia).
    assert (0 <= sum m f) by (apply IHm; intros; apply P; lia). lra. }
  assert (0 <= f m) by (apply P; lia).
  destruct (Nat.eq_dec i m) as [->|]; [lra|].
  assert (0 < sum m f); [|lra]. apply IHm; [intros; apply P; lia|]. exists i. split; [lia|exact Pi].
Qed.

Lemma average_pos : positive n A (hs ++ ds) -> NoDup DS -> 0 < average n M (length (HS ++ DS)).
Proof.
  intros P Nd. unfold average.
  assert (ND : NoDup (HS ++ DS)).
  { pose proof (proj1 (proj2 Hp)) as Nh. pose proof (p_dis n hs ds Hp) as Dis. clear - Nd Nh Dis.
    induction HS as [|h l IH]; [exact Nd|]. cbn. apply NoDup_cons_iff in Nh. destruct Nh as [N1 N2]. constructor.
    - intro J. apply in_app_or in J. destruct J; [contradiction|]. apply (Dis h); [left; reflexivity|assumption].
    - apply IH; [exact N2|]. intros k Ik. apply Dis. right. exact Ik. }
  destruct (Nat.ltb_spec (length (HS ++ DS)) n) as [L|L]; [|reflexivity].
  assert (T : sum n (fun i => entry M i i) - inject_Z (Z.of_nat (length (HS ++ DS))) ==
     sum n (fun i => if mem (HS ++ DS) i then 0 else bil n A (H n C HS (Zc HS DS (ek i))) (H n C HS (Zc HS DS (ek i))))).
  { rewrite <- (sum_mem (HS ++ DS) ND (p_lt n hs ds Hp)). rewrite <- sum_minus. apply sum_ext. intros i Hi.
    destruct (mem (HS ++ DS) i) eqn:E.
    - apply mem_In in E. rewrite M_col by assumption. rewrite Nat.eqb_refl. ring.
    - rewrite entry_bil by assumption. rewrite M_bil, diag_ek by assumption. rewrite E, andb_false_r. ring. }
  rewrite T.
  assert (Q1 : forall i, (i < n)%nat -> mem (HS ++ DS) i = false ->
     0 < bil n A (H n C HS (Zc HS DS (ek i))) (H n C HS (Zc HS DS (ek i)))).
  { intros i Hi E. apply P; [intros; apply HZ_hom; assumption|]. exists i. split; [exact Hi|].
    rewrite HZ_free by (apply mem_notIn; exact E). unfold ek. rewrite Nat.eqb_refl. discriminate. }
  apply Qlt_shift_div_l.
  - change 0 with (inject_Z 0). rewrite <- Zlt_Qlt. lia.
  - rewrite Qmult_0_l. apply sum_pos.
    + intros i Hi. destruct (mem (HS ++ DS) i) eqn:E; [apply Qle_refl|]. apply Qlt_le_weak, Q1; assumption.
    + (* a free dof exists *)
      assert (X : exists i, In i (seq 0 n) /\ ~ In i (HS ++ DS)).
      { destruct (existsb (fun i => negb (mem (HS ++ DS) i)) (seq 0 n)) eqn:E.
        - apply existsb_exists in E. destruct E as [i [I E]]. exists i. split; [exact I|]. apply mem_notIn. destruct (mem (HS ++ DS) i); [discriminate|reflexivity].
        - exfalso. assert (incl (seq 0 n) (HS ++ DS)).
          { intros i I. destruct (mem (HS ++ DS) i) eqn:E'; [apply mem_In; exact E'|]. exfalso.
            assert (existsb (fun i => negb (mem (HS ++ DS) i)) (seq 0 n) = true); [|congruence].
            apply existsb_exists. exists i. split; [exact I|]. rewrite E'. reflexivity. }
          assert (length (seq 0 n) <= length (HS ++ DS))%nat by (apply NoDup_incl_length; [apply seq_NoDup|assumption]).
          rewrite seq_length in *. lia. }
      destruct X as [i [I N]]. apply in_seq in I. exists i. split; [lia|]. apply mem_notIn in N. rewrite N. apply Q1; [lia|exact N].
Qed.

Lemma scaled_positive : positive n A (hs ++ ds) -> NoDup DS -> positive n (scaled n M (HS ++ DS)) [].
Proof.
  intros P Nd x _ [i [Hi Nz]]. set (a := average n M (length (HS ++ DS))).
  assert (Pa : 0 < a) by (apply average_pos; assumption).
  assert (E : dot n x (mulv n (scaled n M (HS ++ DS)) x) ==
     bil n A (H n C HS (Zc HS DS x)) (H n C HS (Zc HS DS x)) + sum n (fun i => if mem (HS ++ DS) i then a * (x i * x i) else 0)).
  { transitivity (bil n M x (scale n M (HS ++ DS) x)).
    - apply dot_ext; [apply veq_refl|]. intros k Hk. apply mulv_scaled. exact Hk.
    - rewrite M_bil. apply Qplus_comp.
      + apply bil_ext; [apply veq_refl|]. apply H_ext. intros k Hk. unfold Zc, Z, scale. destruct (mem (HS ++ DS) k); [reflexivity|ring].
      + apply sum_ext. intros k Hk. unfold scale. fold a. destruct (mem (HS ++ DS) k); [ring|reflexivity]. }
  rewrite E.
  assert (Sq : forall k, 0 <= x k * x k).
  { intro k. unfold Qle, Qmult. cbn. nia. }
  destruct (in_dec Nat.eq_dec i (HS ++ DS)) as [J|J].
  - assert (S1 : 0 < sum n (fun i => if mem (HS ++ DS) i then a * (x i * x i) else 0)).
    { apply sum_pos.
      - intros k Hk. destruct (mem (HS ++ DS) k); [|apply Qle_refl]. apply Qmult_le_0_compat; [apply Qlt_le_weak; exact Pa|apply Sq].
      - exists i. split; [exact Hi|]. apply mem_In in J. rewrite J.
        apply Qmult_lt_0_compat; [exact Pa|]. destruct (Q_dec 0 (x i * x i)) as [[Q|Q]|Q]; [exact Q| |].
        + specialize (Sq i). lra.
        + exfalso. apply Nz. symmetry in Q. apply Qmult_integral in Q. tauto. }
    assert (S2 : 0 <= bil n A (H n C HS (Zc HS DS x)) (H n C HS (Zc HS DS x))).
    { destruct (forallb (fun k => Qeq_bool (H n C HS (Zc HS DS x) k) 0) (seq 0 n)) eqn:Z0.
      - rewrite bil_zero_l; [apply Qle_refl|]. intros k Hk. rewrite forallb_forall in Z0. apply Qeq_bool_iff, Z0, in_seq. lia.
      - apply Qlt_le_weak, P; [intros; apply HZ_hom; assumption|].
        assert (X : exists k, In k (seq 0 n) /\ Qeq_bool (H n C HS (Zc HS DS x) k) 0 = false).
        { clear - Z0. induction (seq 0 n) as [|k l IH]; [discriminate|]. cbn in Z0. apply andb_false_iff in Z0. destruct Z0 as [Z0|Z0].
          - exists k. split; [left; reflexivity|exact Z0].
          - destruct (IH Z0) as [k' [I' E']]. exists k'. split; [right; exact I'|exact E']. }
        destruct X as [k [I E']]. apply in_seq in I. exists k. split; [lia|]. intro Q. apply Qeq_bool_iff in Q. congruence. }
    lra.
  - assert (S2 : 0 < bil n A (H n C HS (Zc HS DS x)) (H n C HS (Zc HS DS x))).
    { apply P; [intros; apply HZ_hom; assumption|]. exists i. split; [exact Hi|]. rewrite HZ_free by exact J. exact Nz. }
    assert (S1 : 0 <= sum n (fun i => if mem (HS ++ DS) i then a * (x i * x i) else 0)).
    { apply sum_nonneg. intros k Hk. destruct (mem (HS ++ DS) k); [|apply Qle_refl].
      apply Qmult_le_0_compat; [apply Qlt_le_weak; exact Pa|apply Sq]. }
    lra.
Qed.
End Spd.
Lemma positive_nonsingular : forall n A, positive n A [] -> nonsingular n A.
Proof.
  intros n A P x E i Hi. destruct (Qeq_dec (x i) 0) as [Q|Q]; [exact Q|exfalso].
  assert (0 < dot n x (mulv n A x)) by (apply P; [intros c []|exists i; split; assumption]).
  assert (dot n x (mulv n A x) == 0); [|lra]. apply sum_zero. intros k Hk. rewrite E by exact Hk. ring.
Qed.
