(** * Elimination of constrained unknowns *)
From Coq Require Import List Arith Bool QArith Lia Setoid Morphisms Qring.
From Verif Require Import Tree Geom Dof Solver SpecSolver.
Import ListNotations.
Open Scope Q_scope.

(** ** Sums *)
Lemma sum_S : forall n f, sum (S n) f == sum n f + f n.
Proof.
  intros n f. unfold sum. rewrite seq_S, map_app. cbn [plus map].
  induction (map f (seq 0 n)) as [|a l IH]; cbn [app fold_right]; [ring|]. rewrite IH. ring.
Qed.
Lemma sum_0 : forall f, sum 0 f == 0.
Proof. intros. reflexivity. Qed.
Lemma sum_ext : forall n f g, (forall i, (i < n)%nat -> f i == g i) -> sum n f == sum n g.
Proof.
  induction n; intros f g H; [reflexivity|]. rewrite !sum_S, (IHn f g), (H n); [reflexivity|lia|]. intros; apply H; lia.
Qed.
Lemma sum_plus : forall n f g, sum n (fun i => f i + g i) == sum n f + sum n g.
Proof. induction n; intros; [reflexivity|]. rewrite !sum_S, IHn. ring. Qed.
Lemma sum_minus : forall n f g, sum n (fun i => f i - g i) == sum n f - sum n g.
Proof. induction n; intros; [reflexivity|]. rewrite !sum_S, IHn. ring. Qed.
Lemma sum_scal : forall n a f, sum n (fun i => a * f i) == a * sum n f.
Proof. induction n; intros; [rewrite !sum_0; ring|]. rewrite !sum_S, IHn. ring. Qed.
Lemma sum_scalr : forall n a f, sum n (fun i => f i * a) == sum n f * a.
Proof. induction n; intros; [rewrite !sum_0; ring|]. rewrite !sum_S, IHn. ring. Qed.
Lemma sum_zero : forall n f, (forall i, (i < n)%nat -> f i == 0) -> sum n f == 0.
Proof. induction n; intros f H; [reflexivity|]. rewrite sum_S, IHn, H; [ring|lia|]. intros; apply H; lia. Qed.
Lemma sum_one : forall n k f, (k < n)%nat -> (forall i, (i < n)%nat -> i <> k -> f i == 0) -> sum n f == f k.
Proof.
  induction n; intros k f Hk H; [lia|]. rewrite sum_S. destruct (Nat.eq_dec k n) as [->|].
  - rewrite sum_zero; [ring|]. intros; apply H; lia.
  - rewrite (IHn k f), (H n); [ring|lia|lia|lia|]. intros; apply H; lia.
Qed.
Lemma sum_swap : forall n m f, sum n (fun i => sum m (fun j => f i j)) == sum m (fun j => sum n (fun i => f i j)).
Proof.
  induction n; intros m f.
  - rewrite sum_0. symmetry. apply sum_zero. intros. apply sum_0.
  - rewrite sum_S, IHn, <- sum_plus. apply sum_ext. intros. rewrite sum_S. reflexivity.
Qed.

(** ** Tables *)
Lemma nth_map_seq : forall X (f : nat -> X) d n i, (i < n)%nat -> nth i (map f (seq 0 n)) d = f i.
Proof.
  intros X f d n i H. rewrite (nth_indep _ d (f 0%nat)) by (rewrite map_length, seq_length; exact H).
  rewrite map_nth, seq_nth by exact H. reflexivity.
Qed.
Lemma entry_tab : forall r c f i j, (i < r)%nat -> (j < c)%nat -> entry (tab r c f) i j = f i j.
Proof. intros. unfold entry, tab. rewrite (nth_map_seq _ _ [] r i H), nth_map_seq by assumption. reflexivity. Qed.
Lemma shape_tab : forall r c f, shape r c (tab r c f) = true.
Proof.
  intros. unfold shape, tab. rewrite map_length, seq_length, Nat.eqb_refl. cbn [andb].
  apply forallb_forall. intros row H. apply in_map_iff in H. destruct H as [i [<- _]].
  rewrite map_length, seq_length. apply Nat.eqb_refl.
Qed.

(** ** Vectors *)
Definition veq (n : nat) (x y : vec) : Prop := forall i, (i < n)%nat -> x i == y i.
Lemma dot_ext : forall n x x' y y', veq n x x' -> veq n y y' -> dot n x y == dot n x' y'.
Proof. intros. apply sum_ext. intros. rewrite (H i), (H0 i) by assumption. reflexivity. Qed.
Lemma mulv_ext : forall n A x x', veq n x x' -> forall i, mulv n A x i == mulv n A x' i.
Proof. intros. apply sum_ext. intros. rewrite (H i0) by assumption. reflexivity. Qed.
Definition bil (n : nat) (A : mat) (y x : vec) : Q := dot n y (mulv n A x).
Lemma bil_ext : forall n A y y' x x', veq n y y' -> veq n x x' -> bil n A y x == bil n A y' x'.
Proof. intros. apply dot_ext; [assumption|]. intros i _. apply mulv_ext. assumption. Qed.
Lemma mulv_plus : forall n A x x' i, mulv n A (fun i => x i + x' i) i == mulv n A x i + mulv n A x' i.
Proof. intros. unfold mulv. rewrite <- sum_plus. apply sum_ext. intros. ring. Qed.
Lemma mulv_scal : forall n A a x i, mulv n A (fun i => a * x i) i == a * mulv n A x i.
Proof. intros. unfold mulv. rewrite <- sum_scal. apply sum_ext. intros. ring. Qed.
Lemma bil_plus_r : forall n A y x x', bil n A y (fun i => x i + x' i) == bil n A y x + bil n A y x'.
Proof.
  intros. unfold bil, dot. rewrite <- sum_plus. apply sum_ext. intros. rewrite mulv_plus. ring.
Qed.
Lemma bil_scal_r : forall n A a y x, bil n A y (fun i => a * x i) == a * bil n A y x.
Proof.
  intros. unfold bil, dot. rewrite <- sum_scal. apply sum_ext. intros. rewrite mulv_scal. ring.
Qed.
Lemma bil_zero_l : forall n A y x, (forall i, (i < n)%nat -> y i == 0) -> bil n A y x == 0.
Proof. intros. apply sum_zero. intros. rewrite H by assumption. ring. Qed.
Lemma bil_zero_r : forall n A y x, (forall i, (i < n)%nat -> x i == 0) -> bil n A y x == 0.
Proof. intros. apply sum_zero. intros. unfold mulv. rewrite sum_zero; [ring|]. intros. rewrite H by assumption. ring. Qed.
Definition ek (k : nat) : vec := fun i => if (i =? k)%nat then 1 else 0.
Lemma dot_ek : forall n k x, (k < n)%nat -> dot n (ek k) x == x k.
Proof.
  intros. unfold dot. rewrite (sum_one n k); [unfold ek; rewrite Nat.eqb_refl; ring|assumption|].
  intros. unfold ek. destruct (Nat.eqb_spec i k); [contradiction|ring].
Qed.
Lemma mulv_ek : forall n A k i, (k < n)%nat -> mulv n A (ek k) i == entry A i k.
Proof.
  intros. unfold mulv. rewrite (sum_one n k); [unfold ek; rewrite Nat.eqb_refl; ring|assumption|].
  intros. unfold ek. destruct (Nat.eqb_spec i0 k); [contradiction|ring].
Qed.

(** ** One elimination step *)
Definition lift (n : nat) (C : mat) (k : nat) (x : vec) : vec :=
  fun i => if (i =? k)%nat then sum n (fun j => entry C k j * x j) else x i.
Definition cstep (n : nat) (C : mat) (A : mat) (k : nat) : mat := fst (constrain_step n C (A, []) k).

Lemma cstep_entry : forall n C A k i j, (k < n)%nat -> (i < n)%nat -> (j < n)%nat ->
  entry (cstep n C A k) i j ==
    (if (i =? k)%nat then 0 else 1) * (if (j =? k)%nat then 0 else 1) *
      (entry A i j + entry A i k * entry C k j + entry C k i * (entry A k j + entry A k k * entry C k j))
    + (if (i =? k)%nat && (j =? k)%nat then 1 else 0).
Proof.
  intros n C A k i j Hk Hi Hj. unfold cstep, constrain_step. cbn [fst].
  rewrite entry_tab by assumption. rewrite entry_tab by assumption. rewrite entry_tab by assumption.
  rewrite !entry_tab by assumption. rewrite !nth_map_seq by assumption. ring.
Qed.

Lemma bil_cstep : forall n C A k y x, (k < n)%nat -> entry C k k == 0 ->
  bil n (cstep n C A k) y x == bil n A (lift n C k y) (lift n C k x) + y k * x k.
Proof.
  intros n C A k y x Hk Hc.
  set (t := sum n (fun j => entry C k j * x j)).
  set (s := sum n (fun j => entry C k j * y j)).
  set (x0 := fun j => if (j =? k)%nat then 0 else x j).
  assert (T : t == sum n (fun j => entry C k j * x0 j)).
  { apply sum_ext. intros j Hj. unfold x0. destruct (Nat.eqb_spec j k); [subst; rewrite Hc; ring|reflexivity]. }
  assert (M : forall i, (i < n)%nat -> mulv n A (lift n C k x) i == mulv n A x0 i + entry A i k * t).
  { intros i Hi. rewrite <- (mulv_ek n A k i Hk).
    transitivity (mulv n A (fun j => x0 j + t * ek k j) i).
    - apply mulv_ext. intros j Hj. unfold lift, x0, ek. destruct (Nat.eqb_spec j k); [subst|]; fold t; ring.
    - rewrite mulv_plus, mulv_scal. ring. }
  assert (R : forall i, (i < n)%nat -> mulv n (cstep n C A k) x i ==
     (if (i =? k)%nat then 0 else 1) * (mulv n A (lift n C k x) i + entry C k i * mulv n A (lift n C k x) k)
      + ek k i * x k).
  { intros i Hi. rewrite (M i), (M k) by assumption. rewrite T.
    unfold mulv at 1.
    transitivity (sum n (fun j => (if (i =? k)%nat then 0 else 1) *
        (entry A i j * x0 j + entry A i k * (entry C k j * x0 j) + entry C k i * (entry A k j * x0 j + entry A k k * (entry C k j * x0 j)))
        + (if (i =? k)%nat then 1 else 0) * (ek k j * x j))).
    - apply sum_ext. intros j Hj. rewrite cstep_entry by assumption. unfold x0, ek.
      destruct (i =? k)%nat, (j =? k)%nat; cbn [andb]; ring.
    - rewrite sum_plus, !sum_scal. rewrite !sum_plus, !sum_scal, !sum_plus, !sum_scal.
      unfold mulv. fold (dot n (ek k) x). rewrite dot_ek by assumption. unfold ek. ring. }
  unfold bil at 1. unfold dot.
  transitivity (sum n (fun i => (if (i =? k)%nat then 0 else y i) * mulv n A (lift n C k x) i
     + (entry C k i * y i) * mulv n A (lift n C k x) k + ek k i * (y i * x k))).
  - apply sum_ext. intros i Hi. rewrite (R i Hi). unfold ek.
    destruct (Nat.eqb_spec i k); [subst; rewrite Hc|]; ring.
  - rewrite !sum_plus, sum_scalr. fold s.
    fold (dot n (ek k) (fun i => y i * x k)). rewrite dot_ek by assumption.
    assert (B : bil n A (lift n C k y) (lift n C k x) ==
       sum n (fun i => (if (i =? k)%nat then 0 else y i) * mulv n A (lift n C k x) i) + s * mulv n A (lift n C k x) k).
    { unfold bil, dot.
      transitivity (sum n (fun i => (if (i =? k)%nat then 0 else y i) * mulv n A (lift n C k x) i
          + ek k i * (s * mulv n A (lift n C k x) i))).
      - apply sum_ext. intros i Hi. unfold lift at 1, ek. destruct (Nat.eqb_spec i k); [subst|]; fold s; ring.
      - rewrite sum_plus. fold (dot n (ek k) (fun i => s * mulv n A (lift n C k x) i)). rewrite dot_ek by assumption; try reflexivity. }
    rewrite B. ring.
Qed.

(** ** All steps *)
Definition csteps (n : nat) (C : mat) (A : mat) (ks : list nat) : mat := fold_left (cstep n C) ks A.
Definition mem (l : list nat) (i : nat) : bool := existsb (Nat.eqb i) l.
Lemma mem_In : forall l i, mem l i = true <-> In i l.
Proof.
  intros. unfold mem. rewrite existsb_exists. split.
  - intros [x [H E]]. apply Nat.eqb_eq in E. subst. exact H.
  - intro H. exists i. split; [exact H|apply Nat.eqb_refl].
Qed.
Lemma mem_notIn : forall l i, mem l i = false <-> ~ In i l.
Proof. intros. rewrite <- mem_In. destruct (mem l i); split; intro H; try congruence; try (intro; congruence). Qed.
Lemma mem_app : forall l l' i, mem (l ++ l') i = mem l i || mem l' i.
Proof. intros. unfold mem. apply existsb_app. Qed.

Definition lifts (n : nat) (C : mat) (ks : list nat) (x : vec) : vec := fold_right (lift n C) x ks.
Definition Z (l : list nat) (x : vec) : vec := fun i => if mem l i then 0 else x i.
Definition H (n : nat) (C : mat) (hs : list nat) (x : vec) : vec :=
  fun i => if mem hs i then sum n (fun j => entry C i j * x j) else x i.

Lemma lift_ext : forall n C k x x', veq n x x' -> veq n (lift n C k x) (lift n C k x').
Proof.
  intros n C k x x' E i Hi. unfold lift. destruct (i =? k)%nat; [|apply E; assumption].
  apply sum_ext. intros. rewrite (E i0) by assumption. reflexivity.
Qed.
Lemma H_ext : forall n C hs x x', veq n x x' -> veq n (H n C hs x) (H n C hs x').
Proof.
  intros n C hs x x' E i Hi. unfold H. destruct (mem hs i); [|apply E; assumption].
  apply sum_ext. intros. rewrite (E i0) by assumption. reflexivity.
Qed.
Lemma lifts_ext : forall n C ks x x', veq n x x' -> veq n (lifts n C ks x) (lifts n C ks x').
Proof. intros n C ks x x' E. induction ks; [exact E|]. cbn. apply lift_ext. exact IHks. Qed.
Lemma Z_ext : forall n l x x', veq n x x' -> veq n (Z l x) (Z l x').
Proof. intros n l x x' E i Hi. unfold Z. destruct (mem l i); [reflexivity|apply E; assumption]. Qed.
Lemma veq_trans : forall n x y z, veq n x y -> veq n y z -> veq n x z.
Proof. intros n x y z A B i Hi. rewrite (A i Hi). apply B. assumption. Qed.
Lemma veq_sym : forall n x y, veq n x y -> veq n y x.
Proof. intros n x y A i Hi. symmetry. apply A. assumption. Qed.
Lemma veq_refl : forall n x, veq n x x.
Proof. intros n x i Hi. reflexivity. Qed.

Lemma lifts_Z : forall n C ds x, (forall d j, In d ds -> (j < n)%nat -> entry C d j == 0) ->
  veq n (lifts n C ds x) (Z ds x).
Proof.
  intros n C ds x. induction ds as [|d ds IH]; intros Hd i Hi; [reflexivity|].
  cbn [lifts fold_right]. fold (lifts n C ds x). unfold lift, Z. cbn [mem existsb].
  destruct (Nat.eqb_spec i d).
  - cbn [orb]. subst. apply sum_zero. intros. rewrite Hd; [ring|left; reflexivity|assumption].
  - cbn [orb]. rewrite (IH (fun d' j Hd' => Hd d' j (or_intror Hd')) i Hi). reflexivity.
Qed.
Lemma lifts_H : forall n C hs x, (forall h h', In h hs -> In h' hs -> entry C h h' == 0) ->
  veq n (lifts n C hs x) (H n C hs x).
Proof.
  intros n C hs x. induction hs as [|h hs IH]; intros Hh i Hi; [reflexivity|].
  cbn [lifts fold_right]. fold (lifts n C hs x). unfold lift, H. cbn [mem existsb]. fold (mem hs i).
  assert (IH' : veq n (lifts n C hs x) (H n C hs x)).
  { apply IH. intros; apply Hh; right; assumption. }
  destruct (Nat.eqb_spec i h).
  - cbn [orb]. subst. apply sum_ext. intros j Hj. rewrite (IH' j Hj). unfold H.
    destruct (mem hs j) eqn:E; [|reflexivity]. apply mem_In in E. rewrite (Hh h j); [ring|left; reflexivity|right; exact E].
  - cbn [orb]. rewrite (IH' i Hi). reflexivity.
Qed.
Lemma lifts_app : forall n C l l' x, lifts n C (l ++ l') x = lifts n C l (lifts n C l' x).
Proof. intros. unfold lifts. apply fold_right_app. Qed.

Lemma H_plus : forall n C hs x x', veq n (H n C hs (fun i => x i + x' i)) (fun i => H n C hs x i + H n C hs x' i).
Proof.
  intros n C hs x x' i Hi. unfold H. destruct (mem hs i); [|reflexivity].
  rewrite <- sum_plus. apply sum_ext. intros. ring.
Qed.
Lemma H_scal : forall n C hs a x, veq n (H n C hs (fun i => a * x i)) (fun i => a * H n C hs x i).
Proof.
  intros n C hs a x i Hi. unfold H. destruct (mem hs i); [|reflexivity].
  rewrite <- sum_scal. apply sum_ext. intros. ring.
Qed.

Definition diag_sum (n : nat) (l : list nat) (y x : vec) : Q := sum n (fun i => if mem l i then y i * x i else 0).

Lemma bil_csteps : forall n C A hs ds y x,
  (forall k, In k (hs ++ ds) -> (k < n)%nat) ->
  NoDup hs -> (forall k, In k hs -> ~ In k ds) ->
  (forall h h', In h hs -> In h' hs -> entry C h h' == 0) ->
  (forall d j, In d ds -> (j < n)%nat -> entry C d j == 0) ->
  bil n (csteps n C A (hs ++ ds)) y x ==
    bil n A (lifts n C (hs ++ ds) y) (lifts n C (hs ++ ds) x) + diag_sum n (hs ++ ds) y x.
Proof.
  intros n C A hs ds y x Hr Hnd Hdis Hh Hd.
  assert (G : forall p r, hs ++ ds = p ++ r -> forall y x,
     bil n (csteps n C A p) y x == bil n A (lifts n C p y) (lifts n C p x) + diag_sum n p y x).
  { induction p as [|k p IH] using rev_ind; intros r E y' x'.
    - cbn. unfold diag_sum. cbn. rewrite sum_zero; [ring|]. intros; reflexivity.
    - unfold csteps. rewrite fold_left_app. cbn [fold_left]. fold (csteps n C A p).
      rewrite <- app_assoc in E.
      assert (Kin : In k (hs ++ ds)) by (rewrite E; apply in_or_app; right; left; reflexivity).
      assert (Hk : (k < n)%nat) by (apply Hr; exact Kin).
      assert (Ckk : entry C k k == 0).
      { apply in_app_or in Kin. destruct Kin; [apply Hh; assumption|apply Hd; assumption]. }
      rewrite bil_cstep by assumption. rewrite (IH ([k] ++ r)) by exact E.
      rewrite !lifts_app. change (lifts n C [k] y') with (lift n C k y'). change (lifts n C [k] x') with (lift n C k x').
      rewrite <- Qplus_assoc. apply Qplus_comp; [reflexivity|].
      destruct (mem p k) eqn:M.
      + (* repeated: a Dirichlet dof *)
        assert (Z0 : forall v, sum n (fun j => entry C k j * v j) == 0).
        { intro v. apply sum_zero. intros j Hj. rewrite Hd; [ring| |exact Hj].
          apply mem_In in M.
          destruct (in_dec Nat.eq_dec k ds) as [|N]; [assumption|exfalso].
          (* k occurs once in hs++ds at most *)
          assert (Kh : In k hs) by (apply in_app_or in Kin; destruct Kin; [assumption|contradiction]).
          assert (Cnt : count_occ Nat.eq_dec (hs ++ ds) k = 1%nat).
          { rewrite count_occ_app. rewrite (proj1 (count_occ_not_In Nat.eq_dec ds k) N).
            assert (count_occ Nat.eq_dec hs k <= 1)%nat by (apply NoDup_count_occ; exact Hnd).
            assert (count_occ Nat.eq_dec hs k > 0)%nat by (apply count_occ_In; exact Kh). lia. }
          rewrite E in Cnt. rewrite !count_occ_app in Cnt. cbn [count_occ] in Cnt.
          destruct (Nat.eq_dec k k); [|congruence].
          assert (count_occ Nat.eq_dec p k > 0)%nat by (apply count_occ_In; exact M). lia. }
        transitivity (diag_sum n p (Z [k] y') (Z [k] x') + y' k * x' k).
        * apply Qplus_comp; [|reflexivity]. apply sum_ext. intros i Hi. destruct (mem p i); [|reflexivity].
          unfold lift, Z, mem. cbn [existsb]. destruct (i =? k)%nat; cbn [orb]; [|reflexivity]. rewrite !Z0. ring.
        * transitivity (sum n (fun i => (if mem p i then Z [k] y' i * Z [k] x' i else 0) + ek k i * (y' i * x' i))).
          -- rewrite sum_plus. fold (dot n (ek k) (fun i => y' i * x' i)). rewrite dot_ek by assumption; try reflexivity.
          -- apply sum_ext. intros i Hi. rewrite mem_app. unfold Z, mem, ek. cbn [existsb].
             destruct (Nat.eqb_spec i k); cbn [orb].
             ++ subst. fold (mem p k). rewrite M. cbn [orb]. ring.
             ++ rewrite orb_false_r. fold (mem p i). destruct (mem p i); ring.
      + transitivity (sum n (fun i => (if mem p i then lift n C k y' i * lift n C k x' i else 0) + ek k i * (y' i * x' i))).
        * rewrite sum_plus. fold (dot n (ek k) (fun i => y' i * x' i)). rewrite dot_ek by assumption; try reflexivity.
        * apply sum_ext. intros i Hi. rewrite mem_app. unfold lift, ek. unfold mem at 3. cbn [existsb].
          destruct (Nat.eqb_spec i k); cbn [orb].
          -- subst. rewrite M. cbn [orb]. ring.
          -- rewrite orb_false_r. destruct (mem p i); ring. }
  apply (G (hs ++ ds) []). rewrite app_nil_r. reflexivity.
Qed.
