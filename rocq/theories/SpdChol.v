(** * CholeskyDecomposition: the three kinds of factors *)
From Coq Require Import List Arith Reals Lia Lra Psatz Setoid Morphisms.
From Verif Require Import Tree RMat Spd SpecSpd SpdFacts SpdTri SpdMod.
Import ListNotations.
Local Open Scope R_scope.

(** what a user of a Cholesky object relies on, for the matrix A *)
Definition root_of (n : nat) (A : mat) (c : chol) (W : mat) : Prop :=
  square_root n A W /\
  (forall m b, meq n m (chol_sqrt_dot c b false) (mmul n W b) /\
               meq n m (chol_sqrt_dot c b true) (mmul n (mtr W) b)).

Lemma square_root_sym : forall n A W, square_root n A W -> symmetric n A.
Proof.
  intros n A W H. unfold symmetric, square_root in *. rewrite <- H. rewrite mtr_mul, mtr_tr. reflexivity.
Qed.

Lemma dot_ok : forall n c m b sp, c_n c = n -> symmetric n (c_C c) ->
  meq n m (chol_dot c b sp) (mmul n (c_C c) b).
Proof.
  intros n c m b sp En Hs. unfold chol_dot. rewrite En. destruct sp; [|reflexivity].
  rewrite mtr_mul. unfold symmetric in Hs. rewrite Hs. rewrite mtr_tr. reflexivity.
Qed.

Lemma pos_neq : forall n (d : nat -> R), (forall i, (i < n)%nat -> 0 < d i) -> forall i, (i < n)%nat -> d i <> 0.
Proof. intros n d H i Hi. specialize (H i Hi). lra. Qed.

Lemma full_ok : forall n C L c, lower n L -> (forall i, (i < n)%nat -> 0 < L i i) ->
  meq n n (mmul n L (mtr L)) C -> c = {| c_n := n; c_C := C; c_f := Full L |} ->
  (forall dg, meq n n (chol_reconstruct c dg) C) /\ root_of n C c L /\
  (forall b, exists x, chol_solve c b = Ok x /\ forall m, meq n m (mmul n C x) b) /\
  (forall b, exists x, chol_sqrt_solve c b false = Ok x /\ forall m, meq n m (mmul n L x) b) /\
  (forall b, exists x, chol_sqrt_solve c b true = Ok x /\ forall m, meq n m (mmul n (mtr L) x) b).
Proof.
  intros n C L c HL Hp HC ->. pose proof (pos_neq n (fun i => L i i) Hp) as Hn.
  split; [intros dg; exact HC|]. split; [split; [exact HC|intros m b; cbn; split; reflexivity]|].
  split; [|split].
  - intros b. cbn [chol_solve c_f c_n].
    destruct (solve_lower n L b false HL Hn) as [y [Ey Hy]]. rewrite Ey. cbn [bind].
    destruct (solve_upper n (mtr L) y false) as [x [Ex Hx]].
    + intros i j Hi Hj Hij. apply HL; auto.
    + exact Hn.
    + exists x. split; [exact Ex|]. intros m. rewrite <- HC, mmul_assoc, Hx. apply Hy.
  - intros b. apply (solve_lower n L b false HL Hn).
  - intros b. apply (solve_upper n (mtr L) b false); [|exact Hn]. intros i j Hi Hj Hij. apply HL; auto.
Qed.

Lemma sparse_ok : forall n C p L c, permutation n p -> lower n L -> (forall i, (i < n)%nat -> 0 < L i i) ->
  meq n n (mmul n L (mtr L)) (fun i j => C (p i) (p j)) -> c = {| c_n := n; c_C := C; c_f := Sparse p L |} ->
  let W := mmul n (mtr (perm_rows p)) L in
  (forall dg, meq n n (chol_reconstruct c dg) C) /\ root_of n C c W /\
  (forall b, exists x, chol_solve c b = Ok x /\ forall m, meq n m (mmul n C x) b) /\
  (forall b, exists x, chol_sqrt_solve c b false = Ok x /\ forall m, meq n m (mmul n W x) b) /\
  (forall b, exists x, chol_sqrt_solve c b true = Ok x /\ forall m, meq n m (mmul n (mtr W) x) b).
Proof.
  intros n C p L c Hpm HL Hp HC -> W. pose proof (pos_neq n (fun i => L i i) Hp) as Hn.
  set (Q := perm_rows p) in *.
  pose proof (perm_orth n p Hpm) as O1. pose proof (perm_orth' n p Hpm) as O2. fold Q in O1, O2.
  assert (Hup : lower n (mtr (mtr L))) by (intros i j Hi Hj Hij; apply HL; auto).
  assert (PC : meq n n (mmul n L (mtr L)) (mmul n Q (mmul n C (mtr Q)))).
  { rewrite HC. unfold Q. rewrite perm_mul by auto. intros i j Hi Hj.
    pose proof (perm_mul_r n n p C Hpm (p i) j) as E. rewrite E; auto. apply Hpm; auto. }
  assert (WW : meq n n (mmul n W (mtr W)) C).
  { unfold W. rewrite mtr_mul, mtr_tr. rewrite mmul_assoc. rewrite <- (mmul_assoc n n n n L).
    rewrite PC. rewrite !mmul_assoc. rewrite O2. rewrite mmul_id_r.
    rewrite <- mmul_assoc. rewrite O2. apply mmul_id_l. }
  split; [intros dg; exact WW|]. split; [split; [exact WW|]|].
  { intros m b. cbn [chol_sqrt_dot c_f c_n]. unfold W. split.
    - rewrite mmul_assoc. reflexivity.
    - rewrite mtr_mul, mtr_tr, mmul_assoc. reflexivity. }
  assert (Wx : forall m x b, meq n m (mmul n L x) (mmul n Q b) -> meq n m (mmul n W x) b).
  { intros m x b H. unfold W. rewrite mmul_assoc, H, <- mmul_assoc, O2. apply mmul_id_l. }
  assert (Wt : forall m x b, meq n m (mmul n (mtr L) x) b -> meq n m (mmul n (mtr W) (mmul n (mtr Q) x)) b).
  { intros m x b H. unfold W. rewrite mtr_mul, mtr_tr, mmul_assoc. rewrite <- (mmul_assoc n n n m Q).
    rewrite O1, mmul_id_l. exact H. }
  split; [|split].
  - intros b. cbn [chol_solve c_f c_n]. fold Q.
    destruct (solve_lower n L (mmul n Q b) false HL Hn) as [y [Ey Hy]]. rewrite Ey. cbn [bind].
    destruct (solve_upper n (mtr L) y false Hup Hn) as [x [Ex Hx]]. rewrite Ex. cbn [bind].
    eexists; split; [reflexivity|]. intros m.
    rewrite <- WW, mmul_assoc. rewrite (Wt m x y (Hx m)). apply Wx. apply Hy.
  - intros b. cbn [chol_sqrt_solve c_f c_n]. fold Q.
    destruct (solve_lower n L (mmul n Q b) false HL Hn) as [y [Ey Hy]]. exists y. split; auto.
  - intros b. cbn [chol_sqrt_solve c_f c_n]. fold Q.
    destruct (solve_upper n (mtr L) b false Hup Hn) as [x [Ex Hx]]. rewrite Ex. cbn [bind].
    eexists; split; [reflexivity|]. intros m. apply Wt. auto.
Qed.

(** LL' with a non-zero diagonal is positive definite *)
Lemma chol_definite : forall n L A, lower n L -> (forall i, (i < n)%nat -> L i i <> 0) -> definite n A ->
  definite n (mmul n L (mmul n A (mtr L))).
Proof.
  intros n L A HL Hd HA x Hx. rewrite qf_conj. apply HA.
  destruct (find_nonzero n (mv n (mtr L) x)) as [H|H]; [exact H|]. exfalso.
  destruct (lower_invertible n L HL Hd) as [X [X1 X2]].
  destruct Hx as (i & Hi & Hx). apply Hx.
  assert (E : meq n n (mmul n (mtr X) (mtr L)) mid).
  { rewrite <- (mtr_id n), <- X1. rewrite mtr_mul. reflexivity. }
  rewrite <- (mv_id n x i Hi).
  transitivity (mv n (mmul n (mtr X) (mtr L)) x i).
  - unfold mv. apply sum_ext. intros j Hj. rewrite (E i j Hi Hj). reflexivity.
  - rewrite mv_mmul. unfold mv at 1. apply sum_zero. intros j Hj. rewrite H by auto. ring.
Qed.

Lemma definite_ext : forall n A B, meq n n A B -> definite n A -> definite n B.
Proof. intros n A B H HA x Hx. rewrite <- (qf_ext n A B x H). auto. Qed.

Lemma id_definite : forall n, definite n mid.
Proof.
  intros n x (i & Hi & Hx). rewrite qf_id.
  destruct (Rle_lt_or_eq_dec 0 (nsq n x) (nsq_nonneg n x)) as [L|E]; auto.
  exfalso. apply Hx. apply (nsq_zero n x); auto.
Qed.

Lemma full_definite : forall n L C, lower n L -> (forall i, (i < n)%nat -> 0 < L i i) ->
  meq n n (mmul n L (mtr L)) C -> definite n C.
Proof.
  intros n L C HL Hp HC.
  apply (definite_ext n (mmul n L (mmul n mid (mtr L)))).
  - rewrite mmul_id_l. exact HC.
  - apply chol_definite; auto. apply (pos_neq n (fun i => L i i) Hp). apply id_definite.
Qed.

Lemma perm_inverse : forall n p, permutation n p -> forall j, (j < n)%nat -> exists i, (i < n)%nat /\ p i = j.
Proof.
  intros n p Hp j Hj. pose proof (perm_orth' n p Hp) as O. specialize (O j j Hj Hj).
  unfold mid in O. rewrite Nat.eqb_refl in O. unfold mmul, mtr, perm_rows in O.
  destruct (find_nonzero n (fun l => mid (p l) j * mid (p l) j)) as [(i & Hi & H)|H].
  - exists i. split; auto. cbn beta in H. unfold mid in H. destruct (Nat.eqb_spec (p i) j); auto. exfalso. apply H. ring.
  - exfalso. rewrite sum_zero in O by auto. lra.
Qed.

Lemma sparse_definite : forall n p L C, permutation n p -> lower n L -> (forall i, (i < n)%nat -> 0 < L i i) ->
  meq n n (mmul n L (mtr L)) (fun i j => C (p i) (p j)) -> definite n C.
Proof.
  intros n p L C Hpm HL Hp HC.
  pose proof (full_definite n L _ HL Hp HC) as HD.
  destruct (sparse_ok n C p L _ Hpm HL Hp HC eq_refl) as (_ & [R _] & _).
  unfold square_root in R. apply (definite_ext n _ _ R).
  intros x Hx.
  assert (E : meq n n (mmul n (mmul n (mtr (perm_rows p)) L) (mtr (mmul n (mtr (perm_rows p)) L)))
                      (mmul n (mtr (perm_rows p)) (mmul n (mmul n L (mtr L)) (mtr (mtr (perm_rows p)))))).
  { rewrite mtr_mul. rewrite !mmul_assoc. reflexivity. }
  rewrite (qf_ext n _ _ x E). rewrite qf_conj. rewrite (qf_ext n _ _ _ HC). apply HD.
  destruct Hx as (j & Hj & Hx). destruct (perm_inverse n p Hpm j Hj) as (i & Hi & Ei).
  exists i. split; auto.
  assert (F : mv n (mtr (mtr (perm_rows p))) x i = x (p i)).
  { exact (perm_mul n 1 p (col x) Hpm i O Hi ltac:(lia)). }
  rewrite F, Ei. exact Hx.
Qed.

(** ** The modified factorization *)
Lemma mid_sym : forall i j, mid i j = mid j i.
Proof. intros. unfold mid. rewrite Nat.eqb_sym. reflexivity. Qed.

Lemma fro_pos : forall n C, (exists i j, (i < n)%nat /\ (j < n)%nat /\ C i j <> 0) -> 0 < fro n C.
Proof.
  intros n C (i & j & Hi & Hj & H). unfold fro. apply sqrt_lt_R0.
  assert (P : forall a, (a < n)%nat -> 0 <= sum n (fun b => C a b * C a b)).
  { intros a _. apply sum_nonneg. intros; apply Rle_0_sqr. }
  destruct (Rle_lt_or_eq_dec 0 (sum n (fun a => sum n (fun b => C a b * C a b)))) as [L|E]; auto.
  - apply sum_nonneg; auto.
  - exfalso. apply H.
    pose proof (sum_nonneg_0 n (fun a => sum n (fun b => C a b * C a b)) P (eq_sym E) i Hi) as Q. cbn beta in Q.
    pose proof (sum_nonneg_0 n (fun b => C i b * C i b) (fun b _ => Rle_0_sqr (C i b)) Q j Hj) as Q2. cbn beta in Q2.
    apply Rmult_integral in Q2. tauto.
Qed.

Lemma symmetric_close_ok : forall n C, symmetric n C -> symmetric_close n C = true.
Proof.
  intros n C H. unfold symmetric_close. apply forallb_forall. intros i Hi. apply forallb_forall. intros j Hj.
  apply in_seq in Hi. apply in_seq in Hj. unfold close.
  assert (E : C i j = C j i) by (symmetry; apply (H i j); lia).
  rewrite E, Rminus_diag_eq, Rabs_R0 by auto.
  destruct (Rle_dec 0 (/ 10 ^ 12 + / 10 ^ 5 * Rabs (C j i))) as [|N]; auto. exfalso. apply N.
  apply Rplus_le_le_0_compat; [left; apply Rinv_0_lt_compat, pow_lt; lra|].
  apply Rmult_le_pos; [left; apply Rinv_0_lt_compat, pow_lt; lra|apply Rabs_pos].
Qed.

(** the blocks of D that linalg.eigh is called on *)
Definition blocks_ok (lx : lapack) (n : nat) (D : mat) : Prop :=
  forall k, (k + 1 < n)%nat -> D k (k + 1)%nat <> 0 ->
    eigh_ok 2 (fun i j => D (k + i)%nat (k + j)%nat) None
              (lx_eigh lx 2 (fun i j => D (k + i)%nat (k + j)%nat) None).

Section Modified.
  Variables (lx : lapack) (n : nat) (C L D0 : mat) (p : nat -> nat).
  Hypothesis Hldl : ldl_ok n C (L, D0, p).
  Hypothesis Hblk : blocks_ok lx n D0.
  Let delta := sqrt eps_mach * fro n C.
  Let D := modchol_loop lx n delta D0 n 0 mid.
  Let Q := perm_rows p.
  Let P : mat := fun i j => mid i (p j).

  Lemma Hpm : permutation n p. Proof. apply Hldl. Qed.

  Lemma loop0 :
    bdp n (msub D D0) 0 /\ bdp n (msub D (mscal delta mid)) 0 /\
    (forall i j, (i < n)%nat -> (j < n)%nat -> D i j = D j i) /\
    ((forall i j, (i < n)%nat -> (j < n)%nat -> i <> j -> D0 i j = 0) ->
     meq n n D (mdiag (fun l => if Rle_dec (D0 l l) delta then delta else D0 l l))) /\
    (bounded_below n D0 mid delta -> meq n n D D0).
  Proof.
    destruct Hldl as (_ & _ & _ & Hs & Hb1 & Hb2 & _).
    destruct (loop_spec lx n delta D0 Hs Hb1 Hb2 Hblk n 0 mid) as (_ & A2 & A3 & A4 & A5 & A6).
    - lia.
    - intros i j _ _ _. reflexivity.
    - fold D in A2, A3, A4, A5, A6. split; [auto|]. split; [auto|]. split; [|split].
      + intros; apply A4; auto; lia.
      + intros H i j Hi Hj. apply A5; auto; try lia.
      + intros H i j Hi Hj. apply A6; auto; try lia. intros x _. specialize (H x). rewrite qf_id in H. exact H.
  Qed.

  Definition pert : mat := mmul n L (mmul n (msub D D0) (mtr L)).

  Lemma LDL : meq n n (mmul n L (mmul n D (mtr L))) (madd C pert).
  Proof.
    destruct Hldl as (_ & _ & _ & _ & _ & _ & HC). rewrite <- HC. unfold pert.
    rewrite <- mmul_add_r, <- mmul_add_l.
    assert (E : meq n n (madd D0 (msub D D0)) D) by (intros i j _ _; unfold madd, msub; ring).
    rewrite E. reflexivity.
  Qed.

  Lemma D_sym : symmetric n D.
  Proof. intros i j Hi Hj. unfold mtr. apply loop0; auto. Qed.
  Lemma D0_sym : symmetric n D0.
  Proof. apply Hldl. Qed.

  Lemma pert_sym : symmetric n pert.
  Proof.
    unfold symmetric, pert. rewrite !mtr_mul, mtr_sub, mtr_tr.
    pose proof D_sym as S1. pose proof D0_sym as S2. unfold symmetric in S1, S2. rewrite S1, S2.
    apply mmul_assoc.
  Qed.

  Lemma pert_psd : semidefinite n pert.
  Proof.
    intros x. unfold pert. rewrite qf_conj. apply (bdp_psd n _ 0). apply loop0. intros; lia.
  Qed.

  Lemma D_bound : bounded_below n D mid delta.
  Proof.
    intros x. pose proof (bdp_psd n _ 0 (proj1 (proj2 loop0)) x ltac:(intros; lia)) as B.
    assert (E : qf n (msub D (mscal delta mid)) x = qf n D x - delta * qf n mid x).
    { unfold qf, msub, mscal. rewrite <- sum_scal, <- sum_sub. apply sum_ext. intros i _.
      rewrite (sum_ext n _ (fun j => D i j * x j - delta * (mid i j * x j))) by (intros; ring).
      rewrite sum_sub, sum_scal. ring. }
    lra.
  Qed.

  Lemma pert_zero : bounded_below n D0 mid delta -> meq n n pert mzero.
  Proof.
    intros H. unfold pert. assert (E : meq n n (msub D D0) mzero).
    { intros i j Hi Hj. unfold msub, mzero. rewrite (proj2 (proj2 (proj2 (proj2 loop0))) H); auto. ring. }
    rewrite E. intros i j _ _. unfold mmul, mzero. apply sum_zero. intros. rewrite sum_zero; [ring|]. intros; ring.
  Qed.

  (** QL is unit lower triangular *)
  Lemma QL : meq n n (mmul n Q L) (fun i j => L (p i) j).
  Proof. apply perm_mul. apply Hpm. Qed.

  Lemma LDL_definite : 0 < fro n C -> definite n (madd C pert).
  Proof.
    intros Hf. apply (definite_ext n _ _ LDL).
    assert (Hd : 0 < delta).
    { unfold delta. apply Rmult_lt_0_compat; auto. apply sqrt_lt_R0. apply eps_pos. }
    assert (DD : definite n D).
    { intros x Hx. pose proof (D_bound x) as B. pose proof (id_definite n x Hx) as I.
      assert (0 < delta * qf n mid x) by (apply Rmult_lt_0_compat; auto). lra. }
    (* conjugate by Q *)
    intros x Hx. rewrite qf_conj. apply DD.
    destruct Hldl as (_ & Hlow & Hone & _).
    assert (Hinv : exists X, meq n n (mmul n X (mmul n Q L)) mid).
    { destruct (lower_invertible n (fun i j => L (p i) j) Hlow) as [X [_ X2]].
      - intros i Hi. rewrite Hone by auto. lra.
      - exists X. rewrite QL. exact X2. }
    destruct Hinv as [X HX].
    assert (HY : meq n n (mmul n (mmul n X Q) L) mid) by (rewrite mmul_assoc; exact HX).
    apply left_inv_right_inv in HY.
    destruct (find_nonzero n (mv n (mtr L) x)) as [H|H]; [exact H|]. exfalso.
    destruct Hx as (i & Hi & Hx). apply Hx.
    assert (E : meq n n (mmul n (mtr (mmul n X Q)) (mtr L)) mid).
    { rewrite <- (mtr_id n), <- HY. rewrite (mtr_mul n n n L). reflexivity. }
    rewrite <- (mv_id n x i Hi).
    transitivity (mv n (mmul n (mtr (mmul n X Q)) (mtr L)) x i).
    - unfold mv. apply sum_ext. intros j Hj. rewrite (E i j Hi Hj). reflexivity.
    - rewrite mv_mmul. unfold mv at 1. apply sum_zero. intros j Hj. rewrite H by auto. ring.
  Qed.

  (** P = Q' *)
  Lemma P_Qt : meq n n P (mtr Q).
  Proof. intros i j _ _. unfold P, Q, mtr, perm_rows. apply mid_sym. Qed.
  Lemma Pt_Q : meq n n (mtr P) Q.
  Proof. intros i j _ _. unfold P, Q, mtr, perm_rows. apply mid_sym. Qed.

  Lemma conj_perm : forall A, meq n n (mmul n (mtr P) (mmul n A P)) (fun i j => A (p i) (p j)).
  Proof.
    intros A. rewrite Pt_Q, P_Qt. unfold Q. rewrite perm_mul by apply Hpm.
    intros i j Hi Hj. apply (perm_mul_r n n p A Hpm); auto. apply Hpm; auto.
  Qed.

  Let c := {| c_n := n; c_C := C; c_f := Modified L D P D0 |}.

  Lemma reconstruct_mod :
    meq n n (chol_reconstruct c true) (fun i j => C (p i) (p j)) /\
    meq n n (chol_reconstruct c false) (fun i j => madd C pert (p i) (p j)).
  Proof.
    assert (E : forall X, meq n n (mmul n (mtr P) (mmul n L (mmul n X (mmul n (mtr L) P))))
                     (mmul n (mtr P) (mmul n (mmul n L (mmul n X (mtr L))) P))).
    { intros X. rewrite !mmul_assoc. reflexivity. }
    cbn [chol_reconstruct c c_f c_n]. split; rewrite E.
    - destruct Hldl as (_ & _ & _ & _ & _ & _ & HC). rewrite HC. apply conj_perm.
    - rewrite LDL. apply conj_perm.
  Qed.

  Hypothesis Hdiag : forall i j, (i < n)%nat -> (j < n)%nat -> i <> j -> D0 i j = 0.
  Hypothesis Hf : 0 < fro n C.

  Lemma D_diag : meq n n D (mdiag (fun i => D i i)).
  Proof.
    pose proof (proj1 (proj2 (proj2 (proj2 loop0))) Hdiag) as E.
    intros i j Hi Hj. rewrite (E i j) by auto. unfold mdiag at 2.
    destruct (Nat.eqb_spec i j) as [<-|N].
    - rewrite (E i i) by auto. reflexivity.
    - unfold mdiag. destruct (Nat.eqb_spec i j); [congruence|reflexivity].
  Qed.

  Lemma D_pos : forall i, (i < n)%nat -> 0 < D i i.
  Proof.
    intros i Hi. pose proof (proj1 (proj2 (proj2 (proj2 loop0))) Hdiag i i Hi Hi) as E.
    rewrite E. unfold mdiag. rewrite Nat.eqb_refl.
    assert (0 < delta). { unfold delta. apply Rmult_lt_0_compat; auto. apply sqrt_lt_R0, eps_pos. }
    destruct (Rle_dec (D0 i i) delta); lra.
  Qed.

  Definition sqrtD : mat := mdiag (fun i => sqrt (D i i)).
  Lemma sqrtD_sq : meq n n (mmul n sqrtD sqrtD) D.
  Proof.
    unfold sqrtD. rewrite mdiag_mul. transitivity (mdiag (fun i => D i i)); [|symmetry; apply D_diag]. apply mdiag_ext.
    intros i Hi. apply sqrt_sqrt. pose proof (D_pos i Hi). lra.
  Qed.

  (** W = P' L sqrt(D) is a square root of P'(C+E)P *)
  Definition Wm : mat := mmul n (mtr P) (mmul n L sqrtD).
  Lemma root_mod : root_of n (fun i j => madd C pert (p i) (p j)) c Wm.
  Proof.
    split.
    - unfold square_root, Wm. rewrite !mtr_mul. rewrite mtr_tr.
      assert (St : meq n n (mtr sqrtD) sqrtD) by apply mtr_diag.
      rewrite St. rewrite !mmul_assoc. rewrite <- (mmul_assoc n n n n sqrtD sqrtD). rewrite sqrtD_sq.
      rewrite <- conj_perm. rewrite <- LDL. rewrite !mmul_assoc. reflexivity.
    - intros m b. cbn [chol_sqrt_dot c c_f c_n]. fold sqrtD. unfold Wm. split.
      + rewrite !mmul_assoc. reflexivity.
      + rewrite !mtr_mul, mtr_tr. assert (St : meq n n (mtr sqrtD) sqrtD) by apply mtr_diag.
        rewrite St. rewrite !mmul_assoc. reflexivity.
  Qed.

  (** solve is right if the pivoting is an involution *)
  Hypothesis Hinv : forall i, (i < n)%nat -> p (p i) = i.

  Lemma P_Q : meq n n P Q.
  Proof.
    intros i j Hi Hj. unfold P, Q, perm_rows, mid.
    destruct (Nat.eqb_spec i (p j)) as [E0|N]; destruct (Nat.eqb_spec (p i) j) as [E|M]; auto.
    - exfalso. apply M. rewrite E0. apply Hinv. auto.
    - exfalso. apply N. rewrite <- E. symmetry. apply Hinv. auto.
  Qed.

  Lemma PL_lower : lower n (mmul n P L) /\ (forall i, (i < n)%nat -> mmul n P L i i = 1).
  Proof.
    assert (E : meq n n (mmul n P L) (fun i j => L (p i) j)) by (rewrite P_Q; apply QL).
    destruct Hldl as (_ & Hlow & Hone & _). split.
    - intros i j Hi Hj Hij. rewrite E by auto. apply Hlow; auto.
    - intros i Hi. rewrite E by auto. apply Hone; auto.
  Qed.

  Lemma solve_mod : forall b, exists x, chol_solve c b = Ok x /\ forall m, meq n m (mmul n (madd C pert) x) b.
  Proof.
    intros b. destruct PL_lower as [H1 H2]. cbn [chol_solve c c_f c_n].
    destruct (solve_lower n (mmul n P L) (mmul n P b) true H1 H2) as [y [Ey Hy]]. rewrite Ey. cbn [bind].
    destruct (solve_upper n (mtr (mmul n P L)) (mmul n (mdiag (fun i => 1 / D i i)) y) true) as [x [Ex Hx]].
    - intros i j Hi Hj Hij. apply H1; auto.
    - exact H2.
    - rewrite Ex. cbn [bind]. eexists; split; [reflexivity|]. intros m.
      pose proof (perm_orth n p Hpm) as O1. pose proof (perm_orth' n p Hpm) as O2. fold Q in O1, O2.
      assert (PPt : meq n n (mmul n P (mtr P)) mid) by (rewrite P_Qt, mtr_tr; exact O2).
      assert (PtP : meq n n (mmul n (mtr P) P) mid) by (apply left_inv_right_inv; exact PPt).
      rewrite <- LDL.
      (* P (LDL') P' x = P b *)
      assert (G : meq n m (mmul n P (mmul n (mmul n L (mmul n D (mtr L))) (mmul n (mtr P) x))) (mmul n P b)).
      { rewrite <- (Hy m). transitivity (mmul n (mmul n P L) (mmul n D (mmul n (mtr (mmul n P L)) x))).
        - rewrite mtr_mul. rewrite !mmul_assoc. reflexivity.
        - rewrite (Hx m). apply mmul_proper; [reflexivity|].
          rewrite D_diag. rewrite <- mmul_assoc, mdiag_mul, mdiag_one; [apply mmul_id_l|].
          intros i Hi. pose proof (D_pos i Hi). field. lra. }
      rewrite <- (mmul_id_l n m (mmul n (mmul n L (mmul n D (mtr L))) (mmul n (mtr P) x))).
      rewrite <- PtP, mmul_assoc, G, <- mmul_assoc, PtP. apply mmul_id_l.
  Qed.

  (** without pivoting the transposed square root is inverted too *)
  Lemma sqrt_solve_mod : (forall i, (i < n)%nat -> p i = i) ->
    forall b, exists x, chol_sqrt_solve c b true = Ok x /\ forall m, meq n m (mmul n (mtr Wm) x) b.
  Proof.
    intros Hid b. cbn [chol_sqrt_solve c c_f c_n]. fold sqrtD.
    assert (Pid : meq n n P mid).
    { intros i j Hi Hj. unfold P. rewrite Hid; auto. }
    assert (EL : meq n n (mmul n sqrtD (mtr L)) (fun i j => sqrt (D i i) * L j i)).
    { unfold sqrtD. rewrite mmul_diag_l. intros i j _ _. reflexivity. }
    destruct Hldl as (_ & Hlow & Hone & _).
    destruct (solve_upper n (mmul n sqrtD (mtr L)) b false) as [x [Ex Hx]].
    - intros i j Hi Hj Hij. unfold mtr at 1. rewrite EL by auto.
      assert (L i j = 0). { rewrite <- (Hid i) by auto. apply Hlow; auto. }
      rewrite H. ring.
    - intros i Hi. rewrite EL by auto. assert (E : L i i = 1) by (rewrite <- (Hid i) at 1 by auto; apply Hone; auto).
      rewrite E. pose proof (sqrt_lt_R0 _ (D_pos i Hi)). lra.
    - rewrite Ex. cbn [bind]. eexists; split; [reflexivity|]. intros m.
      assert (WT : meq n n (mtr Wm) (mmul n sqrtD (mtr L))).
      { unfold Wm. rewrite !mtr_mul, mtr_tr. assert (St : meq n n (mtr sqrtD) sqrtD) by apply mtr_diag.
        rewrite St, Pid. apply mmul_id_r. }
      rewrite WT. assert (Ptid : meq n n (mtr P) mid) by (rewrite Pid; apply mtr_id).
      rewrite Ptid. rewrite mmul_id_l. apply Hx.
  Qed.
End Modified.
