(** Real matrices as functions of two indices.  Nothing here models code of
    /repo: it is the linear algebra the specifications and the model of
    src/spd.py and src/gmrf.py (numpy's [dot], [.T], [diag], [eye]) are
    written in.  A matrix of shape (n,m) is a function [nat -> nat -> R] read
    at indices below n and m; [meq n m] is equality of shape-(n,m) arrays. *)
From Coq Require Import Reals Arith Lia Lra Setoid Morphisms.
Local Open Scope R_scope.

Definition mat := nat -> nat -> R.

(** sum_{i<n} f i *)
Fixpoint sum (n : nat) (f : nat -> R) : R :=
  match n with O => 0 | S k => sum k f + f k end.

Definition meq (n m : nat) (A B : mat) : Prop :=
  forall i j, (i < n)%nat -> (j < m)%nat -> A i j = B i j.

(** A.dot(B), the inner dimension being k *)
Definition mmul (k : nat) (A B : mat) : mat :=
  fun i j => sum k (fun l => A i l * B l j).
(** A.T *)
Definition mtr (A : mat) : mat := fun i j => A j i.
Definition madd (A B : mat) : mat := fun i j => A i j + B i j.
Definition msub (A B : mat) : mat := fun i j => A i j - B i j.
Definition mscal (c : R) (A : mat) : mat := fun i j => c * A i j.
Definition mzero : mat := fun _ _ => 0.
(** np.eye(n), np.identity(n) *)
Definition mid : mat := fun i j => if (i =? j)%nat then 1 else 0.
(** np.diag(d) *)
Definition mdiag (d : nat -> R) : mat :=
  fun i j => if (i =? j)%nat then d i else 0.
(** the (n,1) array with entries v *)
Definition col (v : nat -> R) : mat := fun i _ => v i.

(** ** Sums *)
Lemma sum_ext : forall n f g, (forall i, (i < n)%nat -> f i = g i) -> sum n f = sum n g.
Proof.
  induction n; intros f g H; simpl; auto.
  rewrite (IHn f g) by (intros; apply H; lia). rewrite (H n) by lia. reflexivity.
Qed.

Lemma sum_0 : forall n, sum n (fun _ => 0) = 0.
Proof. induction n; simpl; lra. Qed.

Lemma sum_zero : forall n f, (forall i, (i < n)%nat -> f i = 0) -> sum n f = 0.
Proof. intros. rewrite (sum_ext n f (fun _ => 0)) by auto. apply sum_0. Qed.

Lemma sum_add : forall n f g, sum n (fun i => f i + g i) = sum n f + sum n g.
Proof. induction n; intros; simpl; [lra | rewrite IHn; lra]. Qed.

Lemma sum_sub : forall n f g, sum n (fun i => f i - g i) = sum n f - sum n g.
Proof. induction n; intros; simpl; [lra | rewrite IHn; lra]. Qed.

Lemma sum_scal : forall n c f, sum n (fun i => c * f i) = c * sum n f.
Proof. induction n; intros; simpl; [lra | rewrite IHn; lra]. Qed.

Lemma sum_scal_r : forall n c f, sum n (fun i => f i * c) = sum n f * c.
Proof. induction n; intros; simpl; [lra | rewrite IHn; lra]. Qed.

Lemma sum_swap : forall n m f,
  sum n (fun i => sum m (fun j => f i j)) = sum m (fun j => sum n (fun i => f i j)).
Proof.
  induction n; intros; simpl.
  - rewrite sum_0. reflexivity.
  - rewrite IHn, <- sum_add. reflexivity.
Qed.

Lemma sum_delta : forall n k f, (k < n)%nat ->
  sum n (fun i => if (i =? k)%nat then f i else 0) = f k.
Proof.
  induction n; intros k f H; [lia|]. simpl.
  destruct (Nat.eqb_spec n k) as [->|Ne].
  - rewrite sum_zero; [lra|]. intros i Hi. destruct (Nat.eqb_spec i k); [lia|auto].
  - rewrite IHn by lia. lra.
Qed.

Lemma sum_le : forall n f g, (forall i, (i < n)%nat -> f i <= g i) -> sum n f <= sum n g.
Proof.
  induction n; intros f g H; simpl; [lra|].
  apply Rplus_le_compat; [apply IHn; intros; apply H; lia | apply H; lia].
Qed.

Lemma sum_nonneg : forall n f, (forall i, (i < n)%nat -> 0 <= f i) -> 0 <= sum n f.
Proof. intros. rewrite <- (sum_0 n). apply sum_le; auto. Qed.

Lemma sum_nonneg_0 : forall n f, (forall i, (i < n)%nat -> 0 <= f i) -> sum n f = 0 ->
  forall i, (i < n)%nat -> f i = 0.
Proof.
  induction n; intros f H E i Hi; [lia|]. simpl in E.
  assert (0 <= sum n f) by (apply sum_nonneg; intros; apply H; lia).
  assert (0 <= f n) by (apply H; lia).
  assert (i = n \/ i < n)%nat as [->|L] by lia; [lra|].
  apply IHn; [intros; apply H; lia | lra | exact L].
Qed.

Lemma sum_S_l : forall n f, sum (S n) f = f O + sum n (fun i => f (S i)).
Proof.
  induction n; intros f; [simpl; lra|].
  change (sum (S (S n)) f) with (sum (S n) f + f (S n)).
  rewrite IHn. simpl. lra.
Qed.

Lemma sum_rev : forall n f, sum n (fun i => f (n - 1 - i)%nat) = sum n f.
Proof.
  induction n; intros f; [reflexivity|].
  rewrite sum_S_l. cbn [sum].
  replace (S n - 1 - 0)%nat with n by lia.
  rewrite <- (IHn f). rewrite Rplus_comm. f_equal. apply sum_ext. intros i Hi.
  f_equal. lia.
Qed.

(** ** Equality of arrays is a congruence *)
#[export] Instance meq_equiv n m : Equivalence (meq n m).
Proof.
  split.
  - intros A i j _ _; reflexivity.
  - intros A B H i j Hi Hj; symmetry; auto.
  - intros A B D H1 H2 i j Hi Hj; rewrite H1, H2; auto.
Qed.

#[export] Instance mmul_proper n k m :
  Proper (meq n k ==> meq k m ==> meq n m) (mmul k).
Proof.
  intros A A' HA B B' HB i j Hi Hj. unfold mmul. apply sum_ext. intros l Hl.
  rewrite HA, HB; auto.
Qed.

#[export] Instance mtr_proper n m : Proper (meq n m ==> meq m n) mtr.
Proof. intros A A' HA i j Hi Hj. unfold mtr. auto. Qed.

#[export] Instance madd_proper n m : Proper (meq n m ==> meq n m ==> meq n m) madd.
Proof. intros A A' HA B B' HB i j Hi Hj. unfold madd. rewrite HA, HB; auto. Qed.

#[export] Instance msub_proper n m : Proper (meq n m ==> meq n m ==> meq n m) msub.
Proof. intros A A' HA B B' HB i j Hi Hj. unfold msub. rewrite HA, HB; auto. Qed.

#[export] Instance mscal_proper n m c : Proper (meq n m ==> meq n m) (mscal c).
Proof. intros A A' HA i j Hi Hj. unfold mscal. rewrite HA; auto. Qed.

(** ** Ring-like laws *)
Lemma mmul_assoc : forall n k l m A B D,
  meq n m (mmul l (mmul k A B) D) (mmul k A (mmul l B D)).
Proof.
  intros n k l m A B D i j _ _. unfold mmul.
  rewrite (sum_ext l _ (fun x => sum k (fun y => A i y * B y x * D x j)))
    by (intros; rewrite <- sum_scal_r; reflexivity).
  rewrite sum_swap. apply sum_ext. intros y _. rewrite <- sum_scal.
  apply sum_ext. intros; ring.
Qed.

Lemma mmul_id_l : forall n m A, meq n m (mmul n mid A) A.
Proof.
  intros n m A i j Hi Hj. unfold mmul, mid.
  rewrite (sum_ext n _ (fun l => if (l =? i)%nat then A l j else 0)).
  - rewrite sum_delta by auto. reflexivity.
  - intros l _. rewrite Nat.eqb_sym. destruct (l =? i)%nat; ring.
Qed.

Lemma mmul_id_r : forall n m A, meq n m (mmul m A mid) A.
Proof.
  intros n m A i j Hi Hj. unfold mmul, mid.
  rewrite (sum_ext m _ (fun l => if (l =? j)%nat then A i l else 0)).
  - rewrite sum_delta by auto. reflexivity.
  - intros l _. destruct (l =? j)%nat; ring.
Qed.

Lemma mtr_mul : forall n k m A B,
  meq n m (mtr (mmul k A B)) (mmul k (mtr B) (mtr A)).
Proof. intros n k m A B i j _ _. unfold mtr, mmul. apply sum_ext. intros; ring. Qed.

Lemma mtr_tr : forall n m A, meq n m (mtr (mtr A)) A.
Proof. intros n m A i j _ _. reflexivity. Qed.

Lemma mtr_id : forall n, meq n n (mtr mid) mid.
Proof. intros n i j _ _. unfold mtr, mid. rewrite Nat.eqb_sym. reflexivity. Qed.

Lemma mtr_diag : forall n d, meq n n (mtr (mdiag d)) (mdiag d).
Proof.
  intros n d i j _ _. unfold mtr, mdiag. rewrite Nat.eqb_sym.
  destruct (Nat.eqb_spec i j); subst; reflexivity.
Qed.

Lemma mtr_add : forall n m A B, meq n m (mtr (madd A B)) (madd (mtr A) (mtr B)).
Proof. intros n m A B i j _ _; reflexivity. Qed.

Lemma mtr_sub : forall n m A B, meq n m (mtr (msub A B)) (msub (mtr A) (mtr B)).
Proof. intros n m A B i j _ _; reflexivity. Qed.

Lemma mmul_add_r : forall n k m A B D,
  meq n m (mmul k A (madd B D)) (madd (mmul k A B) (mmul k A D)).
Proof.
  intros n k m A B D i j _ _. unfold mmul, madd. rewrite <- sum_add.
  apply sum_ext; intros; ring.
Qed.

Lemma mmul_add_l : forall n k m A B D,
  meq n m (mmul k (madd A B) D) (madd (mmul k A D) (mmul k B D)).
Proof.
  intros n k m A B D i j _ _. unfold mmul, madd. rewrite <- sum_add.
  apply sum_ext; intros; ring.
Qed.

Lemma mmul_sub_r : forall n k m A B D,
  meq n m (mmul k A (msub B D)) (msub (mmul k A B) (mmul k A D)).
Proof.
  intros n k m A B D i j _ _. unfold mmul, msub. rewrite <- sum_sub.
  apply sum_ext; intros; ring.
Qed.

Lemma mmul_sub_l : forall n k m A B D,
  meq n m (mmul k (msub A B) D) (msub (mmul k A D) (mmul k B D)).
Proof.
  intros n k m A B D i j _ _. unfold mmul, msub. rewrite <- sum_sub.
  apply sum_ext; intros; ring.
Qed.

Lemma mmul_diag_l : forall n m d A,
  meq n m (mmul n (mdiag d) A) (fun i j => d i * A i j).
Proof.
  intros n m d A i j Hi Hj. unfold mmul, mdiag.
  rewrite (sum_ext n _ (fun l => if (l =? i)%nat then d i * A l j else 0)).
  - rewrite (sum_delta n i (fun l => d i * A l j)) by auto. reflexivity.
  - intros l _. rewrite Nat.eqb_sym. destruct (Nat.eqb_spec l i); subst; ring.
Qed.

Lemma mmul_diag_r : forall n m d A,
  meq n m (mmul m A (mdiag d)) (fun i j => A i j * d j).
Proof.
  intros n m d A i j Hi Hj. unfold mmul, mdiag.
  rewrite (sum_ext m _ (fun l => if (l =? j)%nat then A i l * d l else 0)).
  - rewrite (sum_delta m j (fun l => A i l * d l)) by auto. reflexivity.
  - intros l _. destruct (Nat.eqb_spec l j); subst; ring.
Qed.

Lemma mdiag_mul : forall n d e, meq n n (mmul n (mdiag d) (mdiag e)) (mdiag (fun i => d i * e i)).
Proof.
  intros n d e. rewrite mmul_diag_l. intros i j _ _. unfold mdiag.
  destruct (i =? j)%nat; ring.
Qed.

Lemma mdiag_one : forall n d, (forall i, (i < n)%nat -> d i = 1) -> meq n n (mdiag d) mid.
Proof. intros n d H i j Hi _. unfold mdiag, mid. destruct (i =? j)%nat; auto. Qed.

Lemma mdiag_ext : forall n d e, (forall i, (i < n)%nat -> d i = e i) -> meq n n (mdiag d) (mdiag e).
Proof. intros n d e H i j Hi _. unfold mdiag. destruct (i =? j)%nat; auto. Qed.

(** ** Linear dependence, one-sided inverses are two-sided *)

Lemma find_nonzero : forall n (f : nat -> R),
  (exists p, (p < n)%nat /\ f p <> 0) \/ (forall p, (p < n)%nat -> f p = 0).
Proof.
  induction n as [|n IH]; intros f.
  - right; intros; lia.
  - destruct (Req_EM_T (f n) 0) as [E|N].
    + destruct (IH f) as [[p [Hp Hf]]|Hz].
      * left; exists p; split; [lia|auto].
      * right. intros p Hp. assert (p = n \/ p < n)%nat as [->|] by lia; auto.
    + left; exists n; split; [lia|auto].
Qed.

(** skip p: the indices 0,1,... without p *)
Definition skip (p i : nat) : nat := if (i <? p)%nat then i else S i.

Lemma sum_skip : forall n p f, (p <= n)%nat ->
  sum (S n) f = f p + sum n (fun i => f (skip p i)).
Proof.
  induction n; intros p f H.
  - assert (p = 0)%nat by lia. subst. simpl. lra.
  - destruct (Nat.eq_dec p (S n)) as [->|Ne].
    + change (sum (S (S n)) f) with (sum (S n) f + f (S n)).
      rewrite Rplus_comm. f_equal. apply sum_ext. intros i Hi. unfold skip.
      destruct (Nat.ltb_spec i (S n)); [reflexivity|lia].
    + change (sum (S (S n)) f) with (sum (S n) f + f (S n)).
      rewrite (IHn p f) by lia. cbn [sum].
      replace (skip p n) with (S n); [lra|].
      unfold skip. destruct (Nat.ltb_spec n p); lia.
Qed.

(** any n+1 vectors of R^n are linearly dependent *)
Lemma dependent : forall n (v : nat -> nat -> R),
  exists c, (exists j, (j <= n)%nat /\ c j <> 0) /\
    forall i, (i < n)%nat -> sum (S n) (fun j => c j * v j i) = 0.
Proof.
  induction n as [|n IH]; intros v.
  - exists (fun _ => 1). split; [exists O; split; [lia|lra]|]. intros; lia.
  - destruct (find_nonzero (S (S n)) (fun j => v j n)) as [[p [Hp Hv]]|Hz].
    + (* pivot p: subtract multiples of v p from the others *)
      set (w := fun j i => v (skip p j) i - (v (skip p j) n / v p n) * v p i).
      destruct (IH w) as [c [[j0 [Hj0 Hc]] HS]].
      set (cp := - sum (S n) (fun j => c j * (v (skip p j) n / v p n))).
      exists (fun j => if (j =? p)%nat then cp else c (if (j <? p)%nat then j else pred j)).
      assert (Hsk : forall j, (if (skip p j =? p)%nat then cp else
                     c (if (skip p j <? p)%nat then skip p j else pred (skip p j))) = c j).
      { intros j. unfold skip. destruct (Nat.ltb_spec j p).
        - destruct (Nat.eqb_spec j p); [lia|]. destruct (Nat.ltb_spec j p); [auto|lia].
        - destruct (Nat.eqb_spec (S j) p); [lia|]. destruct (Nat.ltb_spec (S j) p); [lia|auto]. }
      split.
      * exists (skip p j0). rewrite Hsk. split; [unfold skip; destruct (j0 <? p)%nat; lia|auto].
      * intros i Hi. rewrite (sum_skip (S n) p) by lia.
        rewrite Nat.eqb_refl.
        rewrite (sum_ext (S n) _ (fun j => c j * w j i + c j * (v (skip p j) n / v p n) * v p i)).
        2:{ intros j _. rewrite Hsk. unfold w. ring. }
        rewrite sum_add, sum_scal_r. unfold cp.
        assert (i = n \/ i < n)%nat as [->|L] by lia.
        -- rewrite (sum_zero (S n) (fun j => c j * w j n)); [ring|].
           intros j _. unfold w. field. auto.
        -- rewrite HS by auto. ring.
    + destruct (IH v) as [c [[j0 [Hj0 Hc]] HS]].
      exists (fun j => if (j <=? n)%nat then c j else 0). split.
      * exists j0. destruct (Nat.leb_spec j0 n); [split; [lia|auto]|lia].
      * intros i Hi. change (sum (S (S n)) ?f) with (sum (S n) f + f (S n)). cbn beta.
        destruct (Nat.leb_spec (S n) n); [lia|].
        assert (i = n \/ i < n)%nat as [->|L] by lia.
        -- rewrite sum_zero; [lra|]. intros j Hj. rewrite Hz by lia. ring.
        -- rewrite (sum_ext (S n) _ (fun j => c j * v j i)); [rewrite HS by auto; lra|].
           intros j Hj. destruct (Nat.leb_spec j n); [reflexivity|lia].
Qed.

(** an injective square matrix is onto *)
Lemma inj_onto : forall n B,
  (forall x, meq n 1 (mmul n B (col x)) mzero -> forall i, (i < n)%nat -> x i = 0) ->
  forall y, exists x, forall i, (i < n)%nat -> sum n (fun j => B i j * x j) = y i.
Proof.
  intros n B Hinj y.
  destruct (dependent n (fun j i => if (j =? n)%nat then y i else B i j)) as [c [[j0 [Hj0 Hc]] HS]].
  assert (HS' : forall i, (i < n)%nat -> sum n (fun j => B i j * c j) + c n * y i = 0).
  { intros i Hi. rewrite <- (HS i Hi). cbn [sum]. rewrite Nat.eqb_refl. f_equal.
    apply sum_ext. intros j Hj. destruct (Nat.eqb_spec j n); [lia|ring]. }
  assert (Hn : c n <> 0).
  { intro E. apply Hc.
    assert (j0 = n \/ j0 < n)%nat as [->|L] by lia; auto.
    apply (Hinj c); auto. intros i j Hi _. unfold mmul, col, mzero.
    specialize (HS' i Hi). rewrite E in HS'. lra. }
  exists (fun j => - c j / c n). intros i Hi.
  rewrite (sum_ext n _ (fun j => (B i j * c j) * (- / c n))) by (intros; unfold Rdiv; ring).
  rewrite sum_scal_r. specialize (HS' i Hi).
  replace (sum n (fun j => B i j * c j)) with (- (c n * y i)) by lra. field. auto.
Qed.

Theorem left_inv_right_inv : forall n A B,
  meq n n (mmul n A B) mid -> meq n n (mmul n B A) mid.
Proof.
  intros n A B H.
  assert (Hinj : forall x, meq n 1 (mmul n B (col x)) mzero -> forall i, (i < n)%nat -> x i = 0).
  { intros x Hx i Hi.
    assert (E : meq n 1 (col x) mzero).
    { rewrite <- (mmul_id_l n 1 (col x)). rewrite <- H. rewrite mmul_assoc, Hx.
      intros a b _ _. unfold mmul, mzero. apply sum_zero. intros; ring. }
    apply (E i O Hi). lia. }
  intros i j Hi Hj.
  destruct (inj_onto n B Hinj (fun i => mid i j)) as [x Hx].
  (* e_j = B x, so BA e_j = B (A B x) = B x = e_j *)
  assert (E1 : meq n 1 (mmul n B (col x)) (col (fun i => mid i j))).
  { intros a b Ha _. unfold mmul, col. apply Hx; auto. }
  assert (E2 : meq n 1 (mmul n (mmul n B A) (col (fun i => mid i j))) (col (fun i => mid i j))).
  { rewrite <- E1 at 1. rewrite <- mmul_assoc. rewrite (mmul_assoc n n n n B A B).
    rewrite H. rewrite mmul_id_r. exact E1. }
  specialize (E2 i O Hi ltac:(lia)). unfold col in E2. rewrite <- E2.
  unfold mmul at 2. rewrite (sum_ext n _ (fun l => if (l =? j)%nat then mmul n B A i l else 0)).
  - rewrite sum_delta by auto. reflexivity.
  - intros l _. unfold mid. destruct (l =? j)%nat; ring.
Qed.

(** ** Quadratic forms *)

(** x' A x *)
Definition qf (n : nat) (A : mat) (x : nat -> R) : R :=
  sum n (fun i => x i * sum n (fun j => A i j * x j)).
(** x' x *)
Definition nsq (n : nat) (x : nat -> R) : R := sum n (fun i => x i * x i).
(** A x *)
Definition mv (n : nat) (A : mat) (x : nat -> R) : nat -> R :=
  fun i => sum n (fun j => A i j * x j).

Lemma qf_ext : forall n A B x, meq n n A B -> qf n A x = qf n B x.
Proof.
  intros. unfold qf. apply sum_ext. intros i Hi. f_equal. apply sum_ext. intros j Hj.
  rewrite H; auto.
Qed.

Lemma qf_vext : forall n A x y, (forall i, (i < n)%nat -> x i = y i) -> qf n A x = qf n A y.
Proof.
  intros. unfold qf. apply sum_ext. intros i Hi. rewrite H by auto. f_equal.
  apply sum_ext. intros j Hj. rewrite H by auto. reflexivity.
Qed.

Lemma nsq_ext : forall n x y, (forall i, (i < n)%nat -> x i = y i) -> nsq n x = nsq n y.
Proof. intros. unfold nsq. apply sum_ext. intros i Hi. rewrite H by auto. reflexivity. Qed.

Lemma nsq_nonneg : forall n x, 0 <= nsq n x.
Proof. intros. apply sum_nonneg. intros. apply Rle_0_sqr. Qed.

Lemma nsq_zero : forall n x, nsq n x = 0 -> forall i, (i < n)%nat -> x i = 0.
Proof.
  intros n x H i Hi.
  assert (E := sum_nonneg_0 n (fun i => x i * x i) (fun i _ => Rle_0_sqr (x i)) H i Hi).
  cbn beta in E. apply Rmult_integral in E. tauto.
Qed.

Lemma qf_add : forall n A B x, qf n (madd A B) x = qf n A x + qf n B x.
Proof.
  intros. unfold qf, madd. rewrite <- sum_add. apply sum_ext. intros i _.
  rewrite <- Rmult_plus_distr_l. f_equal. rewrite <- sum_add. apply sum_ext. intros; ring.
Qed.

Lemma qf_id : forall n x, qf n mid x = nsq n x.
Proof.
  intros. unfold qf, nsq. apply sum_ext. intros i Hi. f_equal.
  pose proof (mmul_id_l n 1 (col x) i O Hi ltac:(lia)) as E. exact E.
Qed.

(** x' (B A B') x = (B'x)' A (B'x) *)
Lemma qf_conj : forall n k B A x,
  qf n (mmul k B (mmul k A (mtr B))) x = qf k A (mv n (mtr B) x).
Proof.
  intros. unfold qf, mv, mmul, mtr.
  transitivity (sum n (fun i => sum k (fun a => x i * B i a *
     sum k (fun b => A a b * sum n (fun j => B j b * x j))))).
  - apply sum_ext. intros i _.
    rewrite <- sum_scal.
    transitivity (sum n (fun j => sum k (fun a => x i * B i a * sum k (fun b => A a b * B j b) * x j))).
    + apply sum_ext. intros j _. rewrite <- sum_scal_r, <- sum_scal. apply sum_ext. intros; ring.
    + rewrite sum_swap. apply sum_ext. intros a _.
      rewrite (sum_ext n _ (fun j => (x i * B i a) * (sum k (fun b => A a b * B j b) * x j)))
        by (intros; ring).
      rewrite sum_scal. f_equal.
      rewrite (sum_ext n _ (fun j => sum k (fun b => A a b * (B j b * x j)))).
      * rewrite sum_swap. apply sum_ext. intros b _. apply sum_scal.
      * intros j _. rewrite <- sum_scal_r. apply sum_ext. intros; ring.
  - rewrite sum_swap. apply sum_ext. intros a _.
    rewrite <- sum_scal_r. apply sum_ext. intros; ring.
Qed.

Lemma qf_diag : forall n d x, qf n (mdiag d) x = sum n (fun i => d i * (x i * x i)).
Proof.
  intros. unfold qf. apply sum_ext. intros i Hi.
  pose proof (mmul_diag_l n 1 d (col x) i O Hi ltac:(lia)) as E.
  unfold mmul, col in E. rewrite E. ring.
Qed.

Lemma mv_mmul : forall n k A B x i,
  mv k (mmul n A B) x i = mv n A (mv k B x) i.
Proof.
  intros. unfold mv.
  pose proof (mmul_assoc (S i) n k 1 A B (col x) i O ltac:(lia) ltac:(lia)) as E.
  exact E.
Qed.

Lemma mv_ext : forall n A x y i, (forall j, (j < n)%nat -> x j = y j) -> mv n A x i = mv n A y i.
Proof. intros. unfold mv. apply sum_ext. intros j Hj. rewrite H; auto. Qed.

Lemma mv_id : forall n x i, (i < n)%nat -> mv n mid x i = x i.
Proof. intros. exact (mmul_id_l n 1 (col x) i O H ltac:(lia)). Qed.
