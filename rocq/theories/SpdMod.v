(** * The modified Cholesky factorization: the loop raises the blocks of D *)
From Coq Require Import List Arith Reals Lia Lra Psatz Setoid Morphisms.
From Verif Require Import Tree RMat Spd SpecSpd SpdFacts SpdTri.
Import ListNotations.
Local Open Scope R_scope.

(** ** Block diagonal quadratic forms *)
Lemma qf_orth : forall n G u v,
  (forall i j, (i < n)%nat -> (j < n)%nat -> u i * G i j * v j = 0 /\ v i * G i j * u j = 0) ->
  qf n G (fun i => u i + v i) = qf n G u + qf n G v.
Proof.
  intros n G u v H. unfold qf. rewrite <- sum_add. apply sum_ext. intros i Hi.
  rewrite <- !sum_scal, <- sum_add. apply sum_ext. intros j Hj.
  destruct (H i j Hi Hj) as [A B].
  replace ((u i + v i) * (G i j * (u j + v j)))
    with (u i * (G i j * u j) + v i * (G i j * v j) + (u i * G i j * v j + v i * G i j * u j)) by ring.
  rewrite A, B. ring.
Qed.

Lemma sum_two : forall n k f, (k + 1 < n)%nat -> (forall i, (i < n)%nat -> i <> k -> i <> (k + 1)%nat -> f i = 0) ->
  sum n f = f k + f (k + 1)%nat.
Proof.
  intros n k f Hk Hz.
  rewrite (sum_ext n f (fun i => (if (i =? k)%nat then f i else 0) + (if (i =? k + 1)%nat then f i else 0))).
  - rewrite sum_add, !sum_delta by lia. reflexivity.
  - intros i Hi. destruct (Nat.eqb_spec i k); destruct (Nat.eqb_spec i (k + 1)); try lia; try lra.
    rewrite Hz by auto. lra.
Qed.

Lemma sum_one : forall n k f, (k < n)%nat -> (forall i, (i < n)%nat -> i <> k -> f i = 0) -> sum n f = f k.
Proof.
  intros n k f Hk Hz. rewrite (sum_ext n f (fun i => if (i =? k)%nat then f i else 0)).
  - apply sum_delta; auto.
  - intros i Hi. destruct (Nat.eqb_spec i k); auto.
Qed.

(** block diagonal with positive semidefinite blocks, from index k on *)
Inductive bdp (n : nat) (G : mat) : nat -> Prop :=
| bdp_end : forall k, (n <= k)%nat -> bdp n G k
| bdp_one : forall k, (k < n)%nat -> 0 <= G k k ->
    (forall j, (k < j)%nat -> (j < n)%nat -> G k j = 0 /\ G j k = 0) ->
    bdp n G (k + 1) -> bdp n G k
| bdp_two : forall k, (k + 1 < n)%nat ->
    (forall a b, 0 <= G k k * (a * a) + (G k (k+1)%nat + G (k+1)%nat k) * (a * b) + G (k+1)%nat (k+1)%nat * (b * b)) ->
    (forall j, (k + 1 < j)%nat -> (j < n)%nat ->
       G k j = 0 /\ G j k = 0 /\ G (k+1)%nat j = 0 /\ G j (k+1)%nat = 0) ->
    bdp n G (k + 2) -> bdp n G k.

Lemma bdp_psd : forall n G k, bdp n G k -> forall x, (forall i, (i < k)%nat -> x i = 0) -> 0 <= qf n G x.
Proof.
  intros n G k H. induction H as [k Hk|k Hk Hd Hz _ IH|k Hk Hd Hz _ IH]; intros x Hx.
  - unfold qf. rewrite sum_zero; [lra|]. intros i Hi. rewrite Hx by lia. ring.
  - set (u := fun i => if (i =? k)%nat then x i else 0).
    set (v := fun i => if (i =? k)%nat then 0 else x i).
    rewrite (qf_vext n G x (fun i => u i + v i)).
    2:{ intros i Hi. unfold u, v. destruct (i =? k)%nat; ring. }
    rewrite qf_orth.
    + assert (0 <= qf n G v).
      { apply IH. intros i Hi. unfold v. destruct (Nat.eqb_spec i k); auto. apply Hx. lia. }
      assert (qf n G u = G k k * (x k * x k)).
      { unfold qf. rewrite (sum_one n k) by (first [lia | intros i Hi N; unfold u; destruct (Nat.eqb_spec i k); [lia|ring]]).
        rewrite (sum_one n k) by (first [lia | intros i Hi N; unfold u; destruct (Nat.eqb_spec i k); [lia|ring]]).
        unfold u. rewrite Nat.eqb_refl. ring. }
      assert (0 <= G k k * (x k * x k)) by (apply Rmult_le_pos; [auto|apply Rle_0_sqr]). lra.
    + intros i j Hi Hj. unfold u, v.
      destruct (Nat.eqb_spec i k) as [Ei|Ni]; destruct (Nat.eqb_spec j k) as [Ej|Nj]; rewrite ?Ei, ?Ej; split; try ring.
      * destruct (Nat.lt_trichotomy j k) as [L|[L|L]]; [rewrite (Hx j) by lia; ring|lia|].
        destruct (Hz j L Hj) as [Z1 Z2]. rewrite Z1. ring.
      * destruct (Nat.lt_trichotomy i k) as [L|[L|L]]; [rewrite (Hx i) by lia; ring|lia|].
        destruct (Hz i L Hi) as [Z1 Z2]. rewrite Z2. ring.
  - set (blk := fun i => ((i =? k) || (i =? k + 1))%nat%bool).
    set (u := fun i => if blk i then x i else 0).
    set (v := fun i => if blk i then 0 else x i).
    assert (Hblk : forall i, blk i = true <-> (i = k \/ i = k + 1)%nat).
    { intros i. unfold blk. rewrite Bool.orb_true_iff, !Nat.eqb_eq. tauto. }
    assert (Hu0 : forall i, i <> k -> i <> (k + 1)%nat -> u i = 0).
    { intros i N1 N2. unfold u. destruct (blk i) eqn:E; auto. apply Hblk in E. lia. }
    assert (Huk : u k = x k). { unfold u. rewrite (proj2 (Hblk k)) by auto. auto. }
    assert (Huk1 : u (k + 1)%nat = x (k + 1)%nat). { unfold u. rewrite (proj2 (Hblk _)) by auto. auto. }
    rewrite (qf_vext n G x (fun i => u i + v i)).
    2:{ intros i Hi. unfold u, v. destruct (blk i); ring. }
    rewrite qf_orth.
    + assert (0 <= qf n G v).
      { apply IH. intros i Hi. unfold v. destruct (blk i) eqn:E; auto. apply Hx.
        assert (~ (i = k \/ i = k + 1)%nat) by (rewrite <- Hblk; congruence). lia. }
      assert (qf n G u = G k k * (x k * x k) + (G k (k+1)%nat + G (k+1)%nat k) * (x k * x (k+1)%nat)
                         + G (k+1)%nat (k+1)%nat * (x (k+1)%nat * x (k+1)%nat)).
      { unfold qf.
        rewrite (sum_two n k) by (first [lia | intros i Hi N1 N2; rewrite (Hu0 i) by auto; ring]).
        rewrite !(sum_two n k) by (first [lia | intros i Hi N1 N2; rewrite (Hu0 i) by auto; ring]).
        rewrite Huk, Huk1. ring. }
      specialize (Hd (x k) (x (k + 1)%nat)). lra.
    + intros i j Hi Hj. unfold u, v.
      destruct (blk i) eqn:Ei; destruct (blk j) eqn:Ej; split; try ring.
      * apply Hblk in Ei. assert (Nj : ~ (j = k \/ j = k + 1)%nat) by (rewrite <- Hblk; congruence).
        destruct (Nat.lt_ge_cases j k) as [L|L]; [rewrite (Hx j) by lia; ring|].
        destruct (Hz j ltac:(lia) Hj) as (Z1 & Z2 & Z3 & Z4). destruct Ei as [->| ->]; rewrite ?Z1, ?Z3; ring.
      * apply Hblk in Ej. assert (Nj : ~ (i = k \/ i = k + 1)%nat) by (rewrite <- Hblk; congruence).
        destruct (Nat.lt_ge_cases i k) as [L|L]; [rewrite (Hx i) by lia; ring|].
        destruct (Hz i ltac:(lia) Hi) as (Z1 & Z2 & Z3 & Z4). destruct Ej as [->| ->]; rewrite ?Z2, ?Z4; ring.
Qed.

(** ** One 2-by-2 block *)
Lemma block_raise : forall E delta t U, eigh_ok 2 E None (t, U) ->
  let T := mdiag (fun i => if Rle_dec (t i) delta then delta else t i) in
  let temp := mmul 2 U (mmul 2 T (mtr U)) in
  let B := fun i j => (temp i j + temp j i) / 2 in
  (forall x, qf 2 E x <= qf 2 B x) /\ (forall x, delta * nsq 2 x <= qf 2 B x) /\
  B 0%nat 1%nat = B 1%nat 0%nat /\
  (bounded_below 2 E mid delta -> meq 2 2 B E).
Proof.
  intros E delta t U (_ & Ho & He) T temp B. cbn [mass] in Ho, He.
  fold (clip delta t) in T.
  assert (O1 : meq 2 2 (mmul 2 (mtr U) U) mid) by (rewrite <- Ho; rewrite mmul_id_l; reflexivity).
  assert (O2 : meq 2 2 (mmul 2 U (mtr U)) mid) by (apply left_inv_right_inv; exact O1).
  assert (Ts : symmetric 2 temp).
  { unfold symmetric, temp, T. rewrite !mtr_mul, mtr_diag, mtr_tr. apply mmul_assoc. }
  assert (BT : meq 2 2 B temp).
  { intros i j Hi Hj. unfold B. pose proof (Ts i j Hi Hj) as Q. unfold mtr in Q. rewrite Q. field. }
  assert (Hn : forall x, nsq 2 (mv 2 (mtr U) x) = nsq 2 x).
  { intros x. rewrite <- !qf_id, <- qf_conj. apply qf_ext. rewrite mmul_id_l. exact O2. }
  assert (EQ : forall x, qf 2 E x = sum 2 (fun i => t i * (mv 2 (mtr U) x i * mv 2 (mtr U) x i))).
  { intros x. rewrite (qf_C 2 E mid U t Ho He x). apply sum_ext. intros i Hi.
    assert (Q : coord 2 mid U x i = mv 2 (mtr U) x i).
    { unfold coord, mv. apply sum_ext. intros j Hj. f_equal. unfold mtr. apply (mmul_id_l 2 2 U); auto. }
    rewrite Q. reflexivity. }
  assert (BQ : forall x, qf 2 B x = sum 2 (fun i => clip delta t i * (mv 2 (mtr U) x i * mv 2 (mtr U) x i))).
  { intros x. rewrite (qf_ext 2 _ _ x BT). unfold temp. rewrite qf_conj. unfold T. apply qf_diag. }
  split; [|split; [|split]].
  - intros x. rewrite EQ, BQ. apply sum_le. intros i Hi. apply Rmult_le_compat_r; [apply Rle_0_sqr|apply clip_ge_d].
  - intros x. rewrite BQ, <- Hn. unfold nsq. rewrite <- sum_scal. apply sum_le. intros i Hi.
    apply Rmult_le_compat_r; [apply Rle_0_sqr|apply clip_ge].
  - unfold B. lra.
  - intros Hb. rewrite BT. unfold temp, T.
    rewrite (mdiag_ext 2 (clip delta t) t).
    + rewrite <- (MspecM 2 E mid U t Ho He). rewrite mmul_id_l, mmul_id_r. reflexivity.
    + intros i Hi. apply clip_same. apply (bound_mu 2 E mid U t Ho He); auto.
Qed.

(** ** The loop *)
Section Loop.
  Variables (lx : lapack) (n : nat) (delta : R) (D : mat).
  Hypothesis Dsym : symmetric n D.
  Hypothesis Dband : forall i j, (i < n)%nat -> (j < n)%nat -> (i + 1 < j)%nat -> D i j = 0.
  Hypothesis Dblock : forall k, (k + 2 < n)%nat -> D k (k + 1)%nat <> 0 -> D (k + 1)%nat (k + 2)%nat = 0.
  Hypothesis Heigh : forall k, (k + 1 < n)%nat -> D k (k + 1)%nat <> 0 ->
    eigh_ok 2 (fun i j => D (k + i)%nat (k + j)%nat) None
              (lx_eigh lx 2 (fun i j => D (k + i)%nat (k + j)%nat) None).

  Definition fresh_from (k : nat) (A : mat) : Prop :=
    forall i j, (i < n)%nat -> (j < n)%nat -> (k <= i \/ k <= j)%nat -> A i j = mid i j.

  Lemma Dsym' : forall i j, (i < n)%nat -> (j < n)%nat -> D i j = D j i.
  Proof. intros i j Hi Hj. symmetry. exact (Dsym i j Hi Hj). Qed.

  Lemma Dnext : forall k j, (k < n)%nat -> (k = (n - 1)%nat \/ D k (k + 1)%nat = 0) ->
    (k < j)%nat -> (j < n)%nat -> D k j = 0 /\ D j k = 0.
  Proof.
    intros k j Hk Hb Hj Hn. rewrite (Dsym' j k) by auto.
    assert (D k j = 0); [|auto].
    destruct (Nat.eq_dec j (k + 1)) as [->|N]; [destruct Hb; [lia|auto]|]. apply Dband; lia.
  Qed.

  Lemma loop_spec : forall fuel k DMC, (n <= k + fuel)%nat -> fresh_from k DMC ->
    let F := modchol_loop lx n delta D fuel k DMC in
    (forall i j, (i < n)%nat -> (j < n)%nat -> (i < k \/ j < k)%nat -> F i j = DMC i j) /\
    bdp n (msub F D) k /\ bdp n (msub F (mscal delta mid)) k /\
    (forall i j, (k <= i)%nat -> (k <= j)%nat -> (i < n)%nat -> (j < n)%nat -> F i j = F j i) /\
    ((forall i j, (k <= i)%nat -> (i < n)%nat -> (j < n)%nat -> i <> j -> D i j = 0) ->
     forall i j, (k <= i)%nat -> (k <= j)%nat -> (i < n)%nat -> (j < n)%nat ->
       F i j = mdiag (fun l => if Rle_dec (D l l) delta then delta else D l l) i j) /\
    ((forall x, (forall i, (i < k)%nat -> x i = 0) -> delta * nsq n x <= qf n D x) ->
     forall i j, (k <= i)%nat -> (k <= j)%nat -> (i < n)%nat -> (j < n)%nat -> F i j = D i j).
  Proof.
    induction fuel as [|fuel IH]; intros k DMC Hf Hfr F.
    { subst F. cbn. repeat split; auto; try (apply bdp_end; lia); intros; lia. }
    unfold F in *. clear F. cbn [modchol_loop].
    destruct (Nat.ltb_spec k n) as [Hk|Hk].
    2:{ repeat split; auto; try (apply bdp_end; lia); intros; lia. }
    destruct ((k =? n - 1)%nat || (if Req_EM_T (D k (S k)) 0 then true else false))%bool eqn:E1.
    - (* 1-by-1 block *)
      assert (Hb : (k = (n - 1)%nat \/ D k (k + 1)%nat = 0)).
      { apply Bool.orb_true_iff in E1. destruct E1 as [E|E].
        - left. apply Nat.eqb_eq. auto.
        - right. rewrite Nat.add_1_r. destruct (Req_EM_T (D k (S k)) 0); [auto|discriminate]. }
      set (x := if Rle_dec (D k k) delta then delta else D k k).
      assert (X1 : delta <= x) by (unfold x; destruct (Rle_dec (D k k) delta); lra).
      assert (X2 : D k k <= x) by (unfold x; destruct (Rle_dec (D k k) delta); lra).
      assert (Hfr' : fresh_from (k + 1) (setblock1 DMC k x)).
      { intros i j Hi Hj H. unfold setblock1.
        destruct (Nat.eqb_spec i k); destruct (Nat.eqb_spec j k); cbn; try lia; apply Hfr; auto; lia. }
      destruct (IH (k + 1)%nat (setblock1 DMC k x) ltac:(lia) Hfr') as (A1 & A2 & A3 & A4 & A5 & A6).
      set (F := modchol_loop lx n delta D fuel (k + 1) (setblock1 DMC k x)) in *.
      assert (Fkk : F k k = x).
      { rewrite A1 by lia. unfold setblock1. rewrite Nat.eqb_refl. reflexivity. }
      assert (Fkj : forall j, (k < j)%nat -> (j < n)%nat -> F k j = 0 /\ F j k = 0).
      { intros j Hj Hn. split; rewrite A1 by lia; unfold setblock1;
          destruct (Nat.eqb_spec j k); try lia; rewrite ?Bool.andb_false_r; cbn; rewrite Hfr by lia;
          unfold mid; [destruct (Nat.eqb_spec k j)|destruct (Nat.eqb_spec j k)]; try lia; auto. }
      split; [|split; [|split; [|split; [|split]]]].
      + intros i j Hi Hj H. rewrite A1 by lia. unfold setblock1.
        destruct (Nat.eqb_spec i k); destruct (Nat.eqb_spec j k); cbn; try lia; auto.
      + apply bdp_one; auto.
        * unfold msub. rewrite Fkk. lra.
        * intros j Hj Hn. destruct (Fkj j Hj Hn). destruct (Dnext k j Hk Hb Hj Hn). unfold msub. lra.
      + apply bdp_one; auto.
        * unfold msub, mscal, mid. rewrite Fkk, Nat.eqb_refl. lra.
        * intros j Hj Hn. destruct (Fkj j Hj Hn). unfold msub, mscal, mid.
          destruct (Nat.eqb_spec k j); [lia|]. destruct (Nat.eqb_spec j k); [lia|]. lra.
      + intros i j Hi Hj Hin Hjn.
        destruct (Nat.eq_dec i k) as [->|Ni]; destruct (Nat.eq_dec j k) as [->|Nj]; auto.
        * destruct (Fkj j); try lia. lra.
        * destruct (Fkj i); try lia. lra.
        * apply A4; lia.
      + intros HD i j Hi Hj Hin Hjn.
        destruct (Nat.eq_dec i k) as [->|Ni]; destruct (Nat.eq_dec j k) as [->|Nj].
        * rewrite Fkk. unfold mdiag. rewrite Nat.eqb_refl. reflexivity.
        * destruct (Fkj j); try lia. unfold mdiag. destruct (Nat.eqb_spec k j); [lia|auto].
        * destruct (Fkj i); try lia. unfold mdiag. destruct (Nat.eqb_spec i k); [lia|auto].
        * apply A5; try lia. intros a b Ha. apply HD. lia.
      + intros HD i j Hi Hj Hin Hjn.
        assert (HD' : forall y, (forall i, (i < k + 1)%nat -> y i = 0) -> delta * nsq n y <= qf n D y).
        { intros y Hy. apply HD. intros a Ha. apply Hy. lia. }
        assert (Dk : delta <= D k k).
        { specialize (HD (fun i => if (i =? k)%nat then 1 else 0)).
          unfold nsq, qf in HD.
          rewrite (sum_one n k) in HD by (first [lia | intros a Ha N; destruct (Nat.eqb_spec a k); [lia|ring]]).
          rewrite (sum_one n k) in HD by (first [lia | intros a Ha N; destruct (Nat.eqb_spec a k); [lia|ring]]).
          rewrite (sum_one n k) in HD by (first [lia | intros a Ha N; destruct (Nat.eqb_spec a k); [lia|ring]]).
          rewrite Nat.eqb_refl in HD.
          assert (delta * (1 * 1) <= 1 * (D k k * 1)); [|lra].
          apply HD. intros a Ha. destruct (Nat.eqb_spec a k); [lia|auto]. }
        destruct (Nat.eq_dec i k) as [->|Ni]; destruct (Nat.eq_dec j k) as [->|Nj].
        * rewrite Fkk. unfold x. destruct (Rle_dec (D k k) delta); lra.
        * destruct (Fkj j); try lia. destruct (Dnext k j Hk Hb); try lia. lra.
        * destruct (Fkj i); try lia. destruct (Dnext k i Hk Hb); try lia. lra.
        * apply (A6 HD'); lia.
    - (* 2-by-2 block *)
      apply Bool.orb_false_iff in E1. destruct E1 as [E1 E2].
      apply Nat.eqb_neq in E1.
      assert (Hk1 : (k + 1 < n)%nat) by lia.
      assert (Dk : D k (k + 1)%nat <> 0).
      { rewrite Nat.add_1_r. destruct (Req_EM_T (D k (S k)) 0); [discriminate|auto]. }
      set (E := fun i j => D (k + i)%nat (k + j)%nat).
      pose proof (Heigh k Hk1 Dk) as HE. fold E in HE.
      destruct (lx_eigh lx 2 E None) as [t U].
      destruct (block_raise E delta t U HE) as (B1 & B2 & B3 & B4).
      cbv zeta in B1, B2, B3, B4.
      set (B := fun i j => (mmul 2 U (mmul 2 (mdiag (fun i0 => if Rle_dec (t i0) delta then delta else t i0)) (mtr U)) i j +
                            mmul 2 U (mmul 2 (mdiag (fun i0 => if Rle_dec (t i0) delta then delta else t i0)) (mtr U)) j i) / 2) in *.
      assert (inb : forall i, ((k <=? i) && (i <? k + 2))%nat%bool = true <-> (i = k \/ i = k + 1)%nat).
      { intros i. rewrite Bool.andb_true_iff, Nat.leb_le, Nat.ltb_lt. lia. }
      assert (sb : forall i j, setblock2 DMC k B i j =
                if (((k <=? i) && (i <? k + 2)) && ((k <=? j) && (j <? k + 2)))%nat%bool
                then B (i - k)%nat (j - k)%nat else DMC i j).
      { intros. unfold setblock2. rewrite !Bool.andb_assoc. reflexivity. }
      assert (Hfr' : fresh_from (k + 2) (setblock2 DMC k B)).
      { intros i j Hi Hj H. rewrite sb.
        destruct (((k <=? i) && (i <? k + 2)) && ((k <=? j) && (j <? k + 2)))%nat%bool eqn:Q.
        - apply Bool.andb_true_iff in Q. destruct Q as [Q1 Q2]. apply inb in Q1. apply inb in Q2. lia.
        - apply Hfr; auto; lia. }
      destruct (IH (k + 2)%nat (setblock2 DMC k B) ltac:(lia) Hfr') as (A1 & A2 & A3 & A4 & A5 & A6).
      set (F := modchol_loop lx n delta D fuel (k + 2) (setblock2 DMC k B)) in *.
      assert (Fin : forall a b, (a < 2)%nat -> (b < 2)%nat -> F (k + a)%nat (k + b)%nat = B a b).
      { intros a b Ha Hb. rewrite A1 by lia. rewrite sb.
        rewrite (proj2 (inb (k + a)%nat)) by lia. rewrite (proj2 (inb (k + b)%nat)) by lia. cbn [andb].
        f_equal; lia. }
      assert (Fout : forall a j, (a < 2)%nat -> (k + 1 < j)%nat -> (j < n)%nat ->
                F (k + a)%nat j = 0 /\ F j (k + a)%nat = 0).
      { intros a j Ha Hj Hn.
        assert (Nj : ((k <=? j) && (j <? k + 2))%nat%bool = false).
        { destruct ((k <=? j) && (j <? k + 2))%nat%bool eqn:Q; auto. apply inb in Q. lia. }
        split; rewrite A1 by lia; rewrite sb, Nj, ?Bool.andb_false_r; cbn [andb]; rewrite Hfr by lia; unfold mid.
        - destruct (Nat.eqb_spec (k + a) j); [lia|auto].
        - destruct (Nat.eqb_spec j (k + a)); [lia|auto]. }
      assert (Dout : forall a j, (a < 2)%nat -> (k + 1 < j)%nat -> (j < n)%nat ->
                D (k + a)%nat j = 0 /\ D j (k + a)%nat = 0).
      { intros a j Ha Hj Hn. rewrite (Dsym' j (k + a)%nat) by lia.
        assert (D (k + a)%nat j = 0); [|auto].
        destruct (Nat.eq_dec (k + a + 1) j) as [<-|N]; [|apply Dband; lia].
        assert (a = 1)%nat as -> by lia. replace (k + 1 + 1)%nat with (k + 2)%nat by lia. apply Dblock; auto. lia. }
      assert (k0 : forall (G : mat), G k k = G (k + 0)%nat (k + 0)%nat) by (intros; rewrite Nat.add_0_r; auto).
      assert (F00 : F k k = B 0%nat 0%nat) by (rewrite <- Fin by lia; rewrite Nat.add_0_r; auto).
      assert (F01 : F k (k + 1)%nat = B 0%nat 1%nat) by (rewrite <- Fin by lia; rewrite Nat.add_0_r; auto).
      assert (F10 : F (k + 1)%nat k = B 1%nat 0%nat) by (rewrite <- Fin by lia; rewrite Nat.add_0_r; auto).
      assert (F11 : F (k + 1)%nat (k + 1)%nat = B 1%nat 1%nat) by (rewrite <- Fin by lia; auto).
      assert (O0 : forall j, (k + 1 < j)%nat -> (j < n)%nat -> F k j = 0 /\ F j k = 0 /\ F (k+1)%nat j = 0 /\ F j (k+1)%nat = 0 /\
                       D k j = 0 /\ D j k = 0 /\ D (k+1)%nat j = 0 /\ D j (k+1)%nat = 0).
      { intros j Hj Hn. destruct (Fout 0%nat j) as [? ?]; try lia. destruct (Fout 1%nat j) as [? ?]; try lia.
        destruct (Dout 0%nat j) as [? ?]; try lia. destruct (Dout 1%nat j) as [? ?]; try lia.
        rewrite !Nat.add_0_r in *. auto 10. }
      set (w := fun a b (i : nat) => match i with O => a | _ => b end : R).
      assert (QB : forall G a b, qf 2 G (w a b) = G 0%nat 0%nat * (a * a) + (G 0%nat 1%nat + G 1%nat 0%nat) * (a * b) + G 1%nat 1%nat * (b * b)).
      { intros. unfold qf, w. cbn [sum]. ring. }
      assert (QN : forall a b, nsq 2 (w a b) = a * a + b * b).
      { intros. unfold nsq, w. cbn [sum]. ring. }
      split; [|split; [|split; [|split; [|split]]]].
      + intros i j Hi Hj H. rewrite A1 by lia. rewrite sb.
        destruct (((k <=? i) && (i <? k + 2)) && ((k <=? j) && (j <? k + 2)))%nat%bool eqn:Q; auto.
        apply Bool.andb_true_iff in Q. destruct Q as [Q1 Q2]. apply inb in Q1. apply inb in Q2. lia.
      + apply bdp_two; auto.
        * intros a b. unfold msub. rewrite F00, F01, F10, F11.
          pose proof (B1 (w a b)) as Q. rewrite !QB in Q. unfold E in Q. rewrite !Nat.add_0_r in Q. nra.
        * intros j Hj Hn. destruct (O0 j Hj Hn) as (?&?&?&?&?&?&?&?). unfold msub. repeat split; lra.
      + apply bdp_two; auto.
        * intros a b. unfold msub, mscal, mid. rewrite F00, F01, F10, F11, !Nat.eqb_refl.
          destruct (Nat.eqb_spec k (k + 1)); [lia|]. destruct (Nat.eqb_spec (k + 1) k); [lia|].
          pose proof (B2 (w a b)) as Q. rewrite !QB, QN in Q. nra.
        * intros j Hj Hn. destruct (O0 j Hj Hn) as (?&?&?&?&?&?&?&?). unfold msub, mscal, mid.
          destruct (Nat.eqb_spec k j); [lia|]. destruct (Nat.eqb_spec j k); [lia|].
          destruct (Nat.eqb_spec (k + 1) j); [lia|]. destruct (Nat.eqb_spec j (k + 1)); [lia|]. repeat split; lra.
      + intros i j Hi Hj Hin Hjn.
        destruct (Nat.lt_ge_cases i (k + 2)); destruct (Nat.lt_ge_cases j (k + 2)).
        * assert (i = k \/ i = k + 1)%nat as [->| ->] by lia; assert (j = k \/ j = k + 1)%nat as [->| ->] by lia; auto;
            rewrite F01, F10; [|symmetry]; exact B3.
        * destruct (O0 j) as (?&?&?&?&_); try lia. assert (i = k \/ i = k + 1)%nat as [->| ->] by lia; lra.
        * destruct (O0 i) as (?&?&?&?&_); try lia. assert (j = k \/ j = k + 1)%nat as [->| ->] by lia; lra.
        * apply A4; lia.
      + intros HD. exfalso. apply Dk. apply HD; lia.
      + intros HD i j Hi Hj Hin Hjn.
        assert (HD' : forall y, (forall i, (i < k + 2)%nat -> y i = 0) -> delta * nsq n y <= qf n D y).
        { intros y Hy. apply HD. intros a Ha. apply Hy. lia. }
        assert (BE : meq 2 2 B E).
        { apply B4. intros y. rewrite qf_id.
          specialize (HD (fun i => if (i =? k)%nat then y 0%nat else if (i =? k + 1)%nat then y 1%nat else 0)).
          set (z := fun i => if (i =? k)%nat then y 0%nat else if (i =? k + 1)%nat then y 1%nat else 0) in HD.
          assert (z0 : forall a, a <> k -> a <> (k + 1)%nat -> z a = 0).
          { intros a N1 N2. unfold z. destruct (Nat.eqb_spec a k); [lia|]. destruct (Nat.eqb_spec a (k + 1)); [lia|auto]. }
          assert (zk : z k = y 0%nat) by (unfold z; rewrite Nat.eqb_refl; auto).
          assert (zk1 : z (k + 1)%nat = y 1%nat).
          { unfold z. destruct (Nat.eqb_spec (k + 1) k); [lia|]. rewrite Nat.eqb_refl; auto. }
          unfold nsq, qf in HD.
          rewrite !(sum_two n k) in HD by (first [lia | intros a Ha N1 N2; rewrite (z0 a) by auto; ring]).
          rewrite zk, zk1 in HD. unfold nsq, qf, E. cbn [sum]. rewrite !Nat.add_0_r.
          assert (forall a, (a < k)%nat -> z a = 0) as Hz by (intros a Ha; apply z0; lia).
          specialize (HD Hz). lra. }
        destruct (Nat.lt_ge_cases i (k + 2)); destruct (Nat.lt_ge_cases j (k + 2)).
        * assert (i = k \/ i = k + 1)%nat as [->| ->] by lia; assert (j = k \/ j = k + 1)%nat as [->| ->] by lia;
            rewrite ?F00, ?F01, ?F10, ?F11, BE by lia; unfold E; rewrite ?Nat.add_0_r; auto.
        * destruct (O0 j) as (?&?&?&?&?&?&?&?); try lia. assert (i = k \/ i = k + 1)%nat as [->| ->] by lia; lra.
        * destruct (O0 i) as (?&?&?&?&?&?&?&?); try lia. assert (j = k \/ j = k + 1)%nat as [->| ->] by lia; lra.
        * apply (A6 HD'); lia.
  Qed.
End Loop.
