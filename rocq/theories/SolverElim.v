(** * The right hand side and the solution of the constrained system *)
From Coq Require Import List Arith Bool QArith Lia Setoid Morphisms Qring.
From Verif Require Import Tree TreeFacts Geom Dof Solver SpecSolver SolverFacts SolverRun.
Import ListNotations.
Open Scope Q_scope.

Lemma dot_plus_l : forall n x x' y, dot n (fun i => x i + x' i) y == dot n x y + dot n x' y.
Proof. intros. unfold dot. rewrite <- sum_plus. apply sum_ext. intros. ring. Qed.
Lemma dot_minus_r : forall n x y y', dot n x (fun i => y i - y' i) == dot n x y - dot n x y'.
Proof. intros. unfold dot. rewrite <- sum_minus. apply sum_ext. intros. ring. Qed.
Lemma dot_scal_r : forall n x a y, dot n x (fun i => a * y i) == a * dot n x y.
Proof. intros. unfold dot. rewrite <- sum_scal. apply sum_ext. intros. ring. Qed.
Lemma app_split : forall X (a b p r : list X) c, a ++ b = p ++ c :: r ->
  (exists q, a = p ++ c :: q /\ r = q ++ b) \/ (exists q, p = a ++ q /\ b = q ++ c :: r).
Proof.
  intros X a. induction a as [|x a IH]; intros b p r c E.
  - right. exists p. split; [reflexivity|exact E].
  - destruct p as [|y p].
    + cbn in E. injection E as E1 E2. left. exists a. split; [subst; reflexivity|subst; reflexivity].
    + cbn in E. injection E as E1 E2. destruct (IH b p r c E2) as [[q [P Q]]|[q [P Q]]].
      * left. exists q. split; [subst; reflexivity|exact Q].
      * right. exists q. split; [subst; reflexivity|exact Q].
Qed.

Section Elim.
Variables (n : nat) (C A : mat) (hs ds : list nat) (d : list Q).
Hypothesis Hr : forall k, In k (hs ++ ds) -> (k < n)%nat.
Hypothesis Hnd : NoDup hs.
Hypothesis Hdis : forall k, In k hs -> ~ In k ds.
Hypothesis Hh : forall h h', In h hs -> In h' hs -> entry C h h' == 0.
Hypothesis Hd : forall k j, In k ds -> (j < n)%nat -> entry C k j == 0.
Hypothesis Hd0 : forall h, In h hs -> nth h d 0 == 0.

Lemma H_ignore : forall x x', (forall i, (i < n)%nat -> ~ In i hs -> x i == x' i) -> veq n (H n C hs x) (H n C hs x').
Proof.
  intros x x' E i Hi. unfold H. destruct (mem hs i) eqn:M.
  - apply sum_ext. intros j Hj. destruct (in_dec Nat.eq_dec j hs) as [I|N].
    + apply mem_In in M. rewrite (Hh i j M I). ring.
    + rewrite (E j Hj N). reflexivity.
  - apply mem_notIn in M. apply E; assumption.
Qed.
Lemma H_zero : forall x, (forall i, (i < n)%nat -> ~ In i hs -> x i == 0) -> forall i, (i < n)%nat -> H n C hs x i == 0.
Proof.
  intros x E i Hi. transitivity (H n C hs (fun _ => 0) i); [apply (H_ignore x (fun _ => 0)); assumption|].
  unfold H. destruct (mem hs i); [|reflexivity]. apply sum_zero. intros. ring.
Qed.
Lemma lifts_prefix : forall dp y, incl dp ds -> veq n (lifts n C (hs ++ dp) y) (H n C hs (Z (hs ++ dp) y)).
Proof.
  intros dp y Inc. rewrite lifts_app. eapply veq_trans; [apply lifts_H; exact Hh|].
  eapply veq_trans.
  - apply H_ext. apply lifts_Z. intros k j Ik Hj. apply Hd; [apply Inc; exact Ik|exact Hj].
  - apply H_ignore. intros i Hi N. unfold Z. rewrite mem_app. apply mem_notIn in N. rewrite N. reflexivity.
Qed.

Definition Zc (y : vec) : vec := Z (hs ++ ds) y.
Lemma Zc_in : forall y k, In k (hs ++ ds) -> Zc y k = 0.
Proof. intros y k I. unfold Zc, Z. apply mem_In in I. rewrite I. reflexivity. Qed.
Lemma Zc_out : forall y k, ~ In k (hs ++ ds) -> Zc y k = y k.
Proof. intros y k I. unfold Zc, Z. apply mem_notIn in I. rewrite I. reflexivity. Qed.
Lemma Zc_idem : forall y, veq n (Zc (Zc y)) (Zc y).
Proof. intros y i Hi. unfold Zc, Z. destruct (mem (hs ++ ds) i); reflexivity. Qed.

(** the matrix before a Dirichlet step, on vectors that vanish at constrained dofs *)
Lemma bil_prefix : forall dp y x, incl dp ds ->
  bil n (csteps n C A (hs ++ dp)) y x ==
   bil n A (H n C hs (Z (hs ++ dp) y)) (H n C hs (Z (hs ++ dp) x)) + diag_sum n (hs ++ dp) y x.
Proof.
  intros dp y x Inc. rewrite bil_csteps.
  - apply Qplus_comp; [|reflexivity]. apply bil_ext; apply lifts_prefix; exact Inc.
  - intros k I. apply Hr. apply in_or_app. apply in_app_or in I. destruct I; [left; assumption|right; apply Inc; assumption].
  - exact Hnd.
  - intros k I1 I2. apply (Hdis k I1). apply Inc. exact I2.
  - exact Hh.
  - intros k j I Hj. apply Hd; [apply Inc; exact I|exact Hj].
Qed.

Lemma record_dot : forall dp y k, incl dp ds -> In k ds ->
  dot n (Zc y) (fun i => entry (csteps n C A (hs ++ dp)) i k) ==
    if mem dp k then 0 else bil n A (H n C hs (Zc y)) (H n C hs (ek k)).
Proof.
  intros dp y k Inc Ik. assert (Hk : (k < n)%nat) by (apply Hr, in_or_app; right; exact Ik).
  transitivity (bil n (csteps n C A (hs ++ dp)) (Zc y) (ek k)).
  { apply dot_ext; [apply veq_refl|]. intros i Hi. rewrite mulv_ek by exact Hk. reflexivity. }
  rewrite bil_prefix by exact Inc.
  assert (D0 : diag_sum n (hs ++ dp) (Zc y) (ek k) == 0).
  { apply sum_zero. intros i Hi. destruct (mem (hs ++ dp) i) eqn:M; [|reflexivity].
    rewrite Zc_in; [ring|]. apply mem_In in M. apply in_or_app. apply in_app_or in M. destruct M; [left|right]; auto. }
  rewrite D0.
  assert (E1 : veq n (H n C hs (Z (hs ++ dp) (Zc y))) (H n C hs (Zc y))).
  { apply H_ext. intros i Hi. unfold Z. destruct (mem (hs ++ dp) i) eqn:M; [|reflexivity].
    rewrite Zc_in; [reflexivity|]. apply mem_In in M. apply in_or_app. apply in_app_or in M. destruct M; [left|right]; auto. }
  destruct (mem dp k) eqn:M.
  - rewrite bil_zero_r; [ring|]. apply H_zero. intros i Hi N. unfold Z. rewrite mem_app.
    apply mem_notIn in N. rewrite N. cbn [orb]. unfold ek. destruct (Nat.eqb_spec i k); [subst; rewrite M|destruct (mem dp i)]; reflexivity.
  - rewrite Qplus_0_r. apply bil_ext; [exact E1|]. apply H_ignore. intros i Hi N. unfold Z. rewrite mem_app.
    apply mem_notIn in N. rewrite N. cbn [orb]. unfold ek. destruct (Nat.eqb_spec i k); [subst; rewrite M|destruct (mem dp i)]; reflexivity.
Qed.

(** one pass of constrain_rhs on one column *)
Definition rstep (k : nat) (a b : vec) : vec :=
  fun i => (if mem (hs ++ ds) i then 0 else 1) *
           ((b i - nth k d 0 * a i) + entry C k i * (b k - nth k d 0 * a k)).
Lemma dot_rstep : forall k a b y,
  dot n y (rstep k a b) == dot n (Zc y) b - nth k d 0 * dot n (Zc y) a
     + sum n (fun i => entry C k i * Zc y i) * (b k - nth k d 0 * a k).
Proof.
  intros. unfold dot, rstep.
  transitivity (sum n (fun i => (Zc y i * b i - nth k d 0 * (Zc y i * a i)) + (entry C k i * Zc y i) * (b k - nth k d 0 * a k))).
  - apply sum_ext. intros i Hi. unfold Zc, Z. destruct (mem (hs ++ ds) i); ring.
  - rewrite sum_plus, sum_minus, sum_scal, sum_scalr. reflexivity.
Qed.

Definition G (l : list nat) : vec := fun i => if mem l i then nth i d 0 else 0.
Variable b : vec.
Definition target (p : list nat) (y : vec) : Q :=
  dot n (H n C hs (Zc y)) b - bil n A (H n C hs (Zc y)) (H n C hs (G p)).
Lemma target_ext : forall p y y', veq n (Zc y) (Zc y') -> target p y == target p y'.
Proof.
  intros p y y' E. unfold target. rewrite (dot_ext n _ (H n C hs (Zc y')) b b); [|apply H_ext; exact E|apply veq_refl].
  rewrite (bil_ext n A _ (H n C hs (Zc y')) _ (H n C hs (G p))); [reflexivity|apply H_ext; exact E|apply veq_refl].
Qed.
Hypothesis Hone : forall h, In h (tl hs) -> b h == 0.

Definition rhs_inv (p : list nat) (bp : vec) : Prop :=
  forall y, dot n y bp == match p with [] => dot n y b | _ => target p y end.

Lemma G_hs : forall p, incl p hs -> veq n (H n C hs (G p)) (fun _ => 0).
Proof.
  intros p Inc i Hi. apply H_zero; [|exact Hi]. intros j Hj N. unfold G.
  destruct (mem p j) eqn:M; [|reflexivity]. apply mem_In in M. exfalso. apply N, Inc, M.
Qed.
Lemma target_hs : forall p y, incl p hs -> target p y == dot n (H n C hs (Zc y)) b.
Proof.
  intros p y Inc. unfold target. rewrite (bil_zero_r n A _ (H n C hs (G p))); [ring|]. intros i Hi. apply (G_hs p Inc i Hi).
Qed.

Lemma rhs_step_h : forall p k q a bp, hs = p ++ k :: q -> rhs_inv p bp -> rhs_inv (p ++ [k]) (rstep k a bp).
Proof.
  intros p k q a bp E I y.
  assert (Kh : In k hs) by (rewrite E; apply in_or_app; right; left; reflexivity).
  assert (Kall : In k (hs ++ ds)) by (apply in_or_app; left; exact Kh).
  assert (Hk : (k < n)%nat) by (apply Hr; exact Kall).
  assert (Inc : incl (p ++ [k]) hs).
  { rewrite E. intros z Hz. apply in_or_app. apply in_app_or in Hz. destruct Hz as [|[<-|[]]]; [left; assumption|right; left; reflexivity]. }
  cut (dot n y (rstep k a bp) == target (p ++ [k]) y).
  { intro G0. destruct (p ++ [k]) eqn:Q; [destruct p; discriminate|exact G0]. }
  rewrite target_hs by exact Inc.
  rewrite dot_rstep, (Hd0 k Kh).
  transitivity (dot n (Zc y) bp + sum n (fun i => entry C k i * Zc y i) * bp k); [ring|].
  destruct p as [|h1 p].
  - (* first hanging node *)
    rewrite (I (Zc y)). rewrite <- (dot_ek n k bp Hk), (I (ek k)), (dot_ek n k b Hk).
    unfold dot at 1.
    transitivity (sum n (fun i => Zc y i * b i + ek k i * (sum n (fun j => entry C i j * Zc y j) * b i))).
    { rewrite sum_plus. apply Qplus_comp; [reflexivity|].
      fold (dot n (ek k) (fun i => sum n (fun j => entry C i j * Zc y j) * b i)). rewrite dot_ek by exact Hk. reflexivity. }
    apply sum_ext. intros i Hi. unfold H. destruct (mem hs i) eqn:M.
    + apply mem_In in M. rewrite Zc_in by (apply in_or_app; left; exact M). cbn [app] in E. unfold ek.
      destruct (Nat.eqb_spec i k); [ring|].
      rewrite (Hone i); [ring|]. rewrite E in *. cbn [tl]. destruct M; [congruence|assumption].
    + apply mem_notIn in M. unfold ek. destruct (Nat.eqb_spec i k); [subst; contradiction|ring].
  - (* later *)
    set (p' := h1 :: p) in *.
    assert (Inc' : incl p' hs) by (intros z Hz; apply Inc, in_or_app; left; exact Hz).
    assert (T : forall z, dot n z bp == target p' z) by (intro z; apply (I z)).
    rewrite (T (Zc y)). rewrite <- (dot_ek n k bp Hk), (T (ek k)).
    rewrite !target_hs by exact Inc'.
    rewrite (dot_ext n (H n C hs (Zc (Zc y))) (H n C hs (Zc y)) b b); [|apply H_ext, Zc_idem|apply veq_refl].
    assert (Z0 : dot n (H n C hs (Zc (ek k))) b == 0).
    { apply sum_zero. intros i Hi. rewrite H_zero; [ring| |exact Hi]. intros j Hj N. unfold Zc, Z.
      destruct (mem (hs ++ ds) j) eqn:M; [reflexivity|]. unfold ek. destruct (Nat.eqb_spec j k); [|reflexivity].
      subst. contradiction. }
    rewrite Z0. ring.
Qed.

Lemma rhs_step_d : forall dp k q bp, ds = dp ++ k :: q -> rhs_inv (hs ++ dp) bp ->
  rhs_inv (hs ++ dp ++ [k]) (rstep k (fun i => entry (csteps n C A (hs ++ dp)) i k) bp).
Proof.
  intros dp k q bp E I y.
  assert (Kd : In k ds) by (rewrite E; apply in_or_app; right; left; reflexivity).
  assert (Kall : In k (hs ++ ds)) by (apply in_or_app; right; exact Kd).
  assert (Hk : (k < n)%nat) by (apply Hr; exact Kall).
  assert (Inc : incl dp ds) by (rewrite E; intros z Hz; apply in_or_app; left; exact Hz).
  cut (dot n y (rstep k (fun i => entry (csteps n C A (hs ++ dp)) i k) bp) == target (hs ++ dp ++ [k]) y).
  { intro G0. destruct (hs ++ dp ++ [k]) eqn:Q; [|exact G0].
    exfalso. apply app_eq_nil in Q. destruct Q as [_ Q]. destruct dp; discriminate. }
  rewrite dot_rstep, record_dot by assumption.
  assert (S0 : sum n (fun i => entry C k i * Zc y i) == 0).
  { apply sum_zero. intros. rewrite Hd by assumption. ring. }
  rewrite S0.
  assert (T : dot n (Zc y) bp == target (hs ++ dp) y).
  { rewrite (I (Zc y)). destruct (hs ++ dp) as [|z l] eqn:Q.
    - apply app_eq_nil in Q. destruct Q as [Q1 Q2]. unfold target. rewrite Q1.
      rewrite (bil_zero_r n A _ (H n C [] (G []))); [|intros i Hi; reflexivity].
      assert (dot n (Zc y) b == dot n (H n C [] (Zc y)) b) as -> by (apply dot_ext; apply veq_refl). ring.
    - apply target_ext. apply Zc_idem. }
  rewrite T. unfold target.
  assert (Gk : veq n (H n C hs (G (hs ++ dp ++ [k])))
     (fun i => H n C hs (G (hs ++ dp)) i + (if mem dp k then 0 else nth k d 0) * H n C hs (ek k) i)).
  { eapply veq_trans; [|eapply veq_trans; [apply H_plus|]].
    - apply (H_ignore _ (fun i => G (hs ++ dp) i + (if mem dp k then 0 else nth k d 0) * ek k i)).
      intros i Hi N. unfold G. rewrite !mem_app. apply mem_notIn in N. rewrite N. cbn [orb].
      unfold ek. unfold mem at 2. cbn [existsb]. rewrite orb_false_r.
      destruct (Nat.eqb_spec i k).
      + subst. destruct (mem dp k); cbn [orb]; ring.
      + rewrite orb_false_r. destruct (mem dp i); ring.
    - intros i Hi. apply Qplus_comp; [reflexivity|]. apply H_scal. exact Hi. }
  rewrite (bil_ext n A _ _ _ _ (veq_refl n (H n C hs (Zc y))) Gk).
  rewrite bil_plus_r, bil_scal_r. destruct (mem dp k); ring.
Qed.

(** ** The solution *)
Variable bfin : vec.
Hypothesis Hb : rhs_inv (hs ++ ds) bfin.
Variables (x : vec).
Hypothesis Hx : forall i, (i < n)%nat -> mulv n (csteps n C A (hs ++ ds)) x i == bfin i.

Lemma target_all : forall y, dot n y bfin == target (hs ++ ds) y.
Proof.
  intro y. rewrite (Hb y). destruct (hs ++ ds) as [|z l] eqn:Q; [|reflexivity].
  apply app_eq_nil in Q. destruct Q as [Q1 Q2]. unfold target, Zc. rewrite Q1, Q2.
  rewrite (bil_zero_r n A _ (H n C [] (G []))); [|intros i Hi; reflexivity].
  assert (dot n y b == dot n (H n C [] (Z ([] ++ []) y)) b) as -> by (apply dot_ext; apply veq_refl). ring.
Qed.
Lemma solution_zero : forall k, In k (hs ++ ds) -> x k == 0.
Proof.
  intros k Ik. assert (Hk : (k < n)%nat) by (apply Hr; exact Ik).
  assert (Zk : forall i, (i < n)%nat -> H n C hs (Zc (ek k)) i == 0).
  { apply H_zero. intros i Hi N. destruct (in_dec Nat.eq_dec i (hs ++ ds)) as [J|J].
    - rewrite Zc_in by exact J. reflexivity.
    - rewrite Zc_out by exact J. unfold ek. destruct (Nat.eqb_spec i k); [subst; contradiction|reflexivity]. }
  assert (B : bil n (csteps n C A (hs ++ ds)) (ek k) x == dot n (ek k) bfin).
  { apply dot_ext; [apply veq_refl|exact Hx]. }
  rewrite bil_prefix in B by apply incl_refl. rewrite target_all in B. unfold target in B.
  rewrite (bil_zero_l n A (H n C hs (Z (hs ++ ds) (ek k)))) in B by exact Zk.
  rewrite (bil_zero_l n A (H n C hs (Zc (ek k)))) in B by exact Zk.
  assert (D : dot n (H n C hs (Zc (ek k))) b == 0).
  { apply sum_zero. intros i Hi. rewrite Zk by exact Hi. ring. }
  rewrite D in B.
  assert (E : diag_sum n (hs ++ ds) (ek k) x == x k).
  { unfold diag_sum. rewrite (sum_one n k).
    - apply mem_In in Ik. rewrite Ik. unfold ek. rewrite Nat.eqb_refl. ring.
    - exact Hk.
    - intros i Hi N. unfold ek. destruct (Nat.eqb_spec i k); [contradiction|]. destruct (mem (hs ++ ds) i); ring. }
  rewrite E in B. rewrite Qplus_0_l in B. rewrite B. ring.
Qed.

(** [w] is the resolved solution *)
Definition resolved : vec := H n C hs (fun i => Zc x i + G (hs ++ ds) i).
Lemma galerkin : forall y, dot n (H n C hs (Zc y)) (mulv n A resolved) == dot n (H n C hs (Zc y)) b.
Proof.
  intro y.
  assert (B : bil n (csteps n C A (hs ++ ds)) y x == dot n y bfin).
  { apply dot_ext; [apply veq_refl|exact Hx]. }
  rewrite bil_prefix in B by apply incl_refl. rewrite target_all in B. unfold target in B.
  assert (D : diag_sum n (hs ++ ds) y x == 0).
  { apply sum_zero. intros i Hi. destruct (mem (hs ++ ds) i) eqn:M; [|reflexivity].
    apply mem_In in M. rewrite (solution_zero i M). ring. }
  rewrite D in B. fold (Zc y) (Zc x) in B. fold (bil n A (H n C hs (Zc y)) resolved).
  rewrite (bil_ext n A _ _ resolved _ (veq_refl n _) (H_plus n C hs (Zc x) (G (hs ++ ds)))).
  rewrite bil_plus_r. rewrite Qplus_0_r in B. rewrite B. ring.
Qed.
End Elim.
