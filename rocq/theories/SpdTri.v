(** * Triangular solves and permutations *)
From Coq Require Import List Arith Reals Lia Lra Setoid Morphisms.
From Verif Require Import Tree RMat Spd SpecSpd.
Import ListNotations.
Local Open Scope R_scope.

Lemma has_zero_false : forall n d, has_zero n d = false <-> forall i, (i < n)%nat -> d i <> 0.
Proof.
  induction n; intros d; simpl.
  - split; [intros; lia|auto].
  - destruct (Req_EM_T (d n) 0) as [E|N].
    + split; [discriminate|]. intros H. exfalso. apply (H n); auto.
    + rewrite IHn. split; intros H i Hi.
      * assert (i = n \/ i < n)%nat as [->|] by lia; auto.
      * apply H. lia.
Qed.

Lemma fwd_stable : forall u A b j k i, (i < k)%nat -> fwd u A b j k i = fwd u A b j (S i) i.
Proof.
  induction k; intros i Hi; [lia|].
  destruct (Nat.eq_dec i k) as [->|N]; [reflexivity|].
  cbn [fwd]. destruct (Nat.eqb_spec i k); [lia|]. rewrite IHk by lia. cbn [fwd]. reflexivity.
Qed.

Lemma fwd_eq : forall (u : bool) A b j n i, (i < n)%nat -> (u = false -> A i i <> 0) ->
  sum i (fun l => A i l * fwd u A b j n l) + (if u then 1 else A i i) * fwd u A b j n i = b i j.
Proof.
  intros u A b j n i Hi Hd. rewrite (fwd_stable u A b j n i Hi). cbn [fwd]. rewrite Nat.eqb_refl.
  rewrite (sum_ext i (fun l => A i l * fwd u A b j n l) (fun l => A i l * fwd u A b j i l)).
  - destruct u; [field|]. field. auto.
  - intros l Hl. rewrite (fwd_stable u A b j n l) by lia. rewrite (fwd_stable u A b j i l) by lia.
    reflexivity.
Qed.

Lemma sum_upto : forall n i f, (i < n)%nat -> (forall l, (l < n)%nat -> (i < l)%nat -> f l = 0) ->
  sum n f = sum i f + f i.
Proof.
  induction n; intros i f Hi Hz; [lia|].
  destruct (Nat.eq_dec i n) as [->|N]; [reflexivity|].
  cbn [sum]. rewrite (IHn i f) by (auto; try lia; intros; apply Hz; lia).
  rewrite (Hz n) by lia. lra.
Qed.

(** a lower triangular system *)
Lemma solve_lower : forall n A b (u : bool), lower n A ->
  (if u then forall i, (i < n)%nat -> A i i = 1 else forall i, (i < n)%nat -> A i i <> 0) ->
  exists x, solve_triangular n A b true u = Ok x /\ forall m, meq n m (mmul n A x) b.
Proof.
  intros n A b u HL Hd. unfold solve_triangular.
  assert (G : (negb u && has_zero n (fun i => A i i))%bool = false).
  { destruct u; auto. cbn. apply has_zero_false. exact Hd. }
  rewrite G. eexists; split; [reflexivity|].
  intros m i j Hi Hj. unfold mmul.
  rewrite (sum_upto n i) by (auto; intros l Hl Hil; rewrite (HL i l) by auto; ring).
  rewrite <- (fwd_eq u A b j n i Hi).
  - destruct u; [rewrite (Hd i Hi)|]; reflexivity.
  - intros ->. auto.
Qed.

Lemma flip_mmul : forall n m A x, meq n m (mmul n A (flip1 n x)) (flip1 n (mmul n (flip2 n A) x)).
Proof.
  intros n m A x i j Hi Hj. unfold mmul, flip1, flip2.
  rewrite <- (sum_rev n (fun l => A i l * x (n - 1 - l)%nat j)).
  apply sum_ext. intros l Hl. f_equal; f_equal; lia.
Qed.

Lemma flip1_flip1 : forall n m b, meq n m (flip1 n (flip1 n b)) b.
Proof. intros n m b i j Hi Hj. unfold flip1. f_equal. lia. Qed.

#[export] Instance flip1_proper n m : Proper (meq n m ==> meq n m) (flip1 n).
Proof. intros A A' H i j Hi Hj. unfold flip1. apply H; lia. Qed.

(** an upper triangular system *)
Lemma solve_upper : forall n A b (u : bool), lower n (mtr A) ->
  (if u then forall i, (i < n)%nat -> A i i = 1 else forall i, (i < n)%nat -> A i i <> 0) ->
  exists x, solve_triangular n A b false u = Ok x /\ forall m, meq n m (mmul n A x) b.
Proof.
  intros n A b u HL Hd.
  destruct (solve_lower n (flip2 n A) (flip1 n b) u) as [x [Ex Hx]].
  - intros i j Hi Hj Hij. unfold flip2. apply (HL (n - 1 - j)%nat (n - 1 - i)%nat); lia.
  - destruct u; intros i Hi; apply Hd; lia.
  - unfold solve_triangular in *.
    assert (G : (negb u && has_zero n (fun i => A i i))%bool = false).
    { destruct u; auto. cbn. apply has_zero_false. exact Hd. }
    rewrite G. destruct (negb u && has_zero n (fun i => flip2 n A i i))%bool; [discriminate|].
    injection Ex as <-. eexists; split; [reflexivity|]. intros m.
    rewrite flip_mmul. rewrite Hx. apply flip1_flip1.
Qed.

Lemma solve_proper : forall n A b b' lw u x, (forall m, meq n m b b') ->
  solve_triangular n A b lw u = Ok x ->
  exists x', solve_triangular n A b' lw u = Ok x'.
Proof.
  intros n A b b' lw u x _ H. unfold solve_triangular in *.
  destruct (negb u && has_zero n (fun i => A i i))%bool; [discriminate|]. eexists; reflexivity.
Qed.

(** unit lower triangular matrices are invertible *)
Lemma lower_invertible : forall n A, lower n A -> (forall i, (i < n)%nat -> A i i <> 0) ->
  exists X, meq n n (mmul n A X) mid /\ meq n n (mmul n X A) mid.
Proof.
  intros n A HL Hd. destruct (solve_lower n A mid false HL Hd) as [X [_ HX]].
  exists X. split; [apply HX|]. apply left_inv_right_inv. apply HX.
Qed.

(** ** Permutations *)
Lemma perm_mul : forall n m p A, permutation n p ->
  meq n m (mmul n (perm_rows p) A) (fun i j => A (p i) j).
Proof.
  intros n m p A [Hp _] i j Hi Hj. unfold mmul, perm_rows, mid.
  rewrite (sum_ext n _ (fun l => if (l =? p i)%nat then A l j else 0)).
  - rewrite sum_delta by auto. reflexivity.
  - intros l _. rewrite Nat.eqb_sym. destruct (l =? p i)%nat; ring.
Qed.

Lemma perm_mul_r : forall n m p A, permutation n p ->
  meq m n (mmul n A (mtr (perm_rows p))) (fun i j => A i (p j)).
Proof.
  intros n m p A [Hp _] i j Hi Hj. unfold mmul, perm_rows, mid, mtr.
  rewrite (sum_ext n _ (fun l => if (l =? p j)%nat then A i l else 0)).
  - rewrite sum_delta by auto. reflexivity.
  - intros l _. rewrite Nat.eqb_sym. destruct (l =? p j)%nat; ring.
Qed.

Lemma perm_orth : forall n p, permutation n p ->
  meq n n (mmul n (perm_rows p) (mtr (perm_rows p))) mid.
Proof.
  intros n p Hp. rewrite perm_mul by auto. intros i j Hi Hj. destruct Hp as [_ Hp].
  unfold mtr, perm_rows, mid. destruct (Nat.eqb_spec i j) as [->|N].
  - rewrite Nat.eqb_refl. reflexivity.
  - destruct (Nat.eqb_spec (p j) (p i)) as [E|]; [|reflexivity]. apply Hp in E; auto. congruence.
Qed.

Lemma perm_orth' : forall n p, permutation n p ->
  meq n n (mmul n (mtr (perm_rows p)) (perm_rows p)) mid.
Proof. intros. apply left_inv_right_inv. apply perm_orth; auto. Qed.
