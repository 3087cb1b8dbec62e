(** * Local forms: the entries of the local vectors and matrices; the six-point rule *)
From Coq Require Import List Reals Lra Lia Psatz.
From Verif Require Import Tree Quadrature SpecQuadrature QuadratureFacts QuadratureRules QuadratureMap QuadratureGreen.
Import ListNotations.
Open Scope R_scope.

Lemma nth_map_seq0 : forall X (f : nat -> X) d n i, (i < n)%nat -> nth i (map f (seq 0 n)) d = f i.
Proof.
  intros X f d n i L. rewrite (nth_indep _ d (f 0%nat)) by (rewrite map_length, seq_length; exact L). rewrite map_nth, seq_nth by exact L. reflexivity.
Qed.
Lemma nth_repeat0 : forall X (a d : X) n i, (i < n)%nat -> nth i (repeat a n) d = a.
Proof. induction n; intros i L; [lia|]. destruct i; [reflexivity|]. cbn [repeat nth]. apply IHn. lia. Qed.

(** The contribution of one region *)
Definition lin_term (i : nat) (reg : list node) : R := rsum (map (fun p => n_w p * n_ker p * nth i (n_test p) 0) reg).
Definition bil_term (i j : nat) (reg : list node) : R := rsum (map (fun p => n_w p * n_ker p * nth i (n_test p) 0 * nth j (n_trial p) 0) reg).

Lemma constant_sum : forall regions, eval_constant regions = rsum (map (fun reg => rsum (map (fun p => n_w p * n_ker p) reg)) regions).
Proof.
  intros regions. unfold eval_constant.
  assert (G : forall rs a, fold_left (fun f reg => f + rsum (map (fun p => n_w p * n_ker p) reg)) rs a = a + rsum (map (fun reg => rsum (map (fun p => n_w p * n_ker p) reg)) rs)).
  { induction rs as [|r rs IH]; intros a; cbn [fold_left map]; [rewrite rsum_nil; ring|]. rewrite IH, rsum_cons. ring. }
  rewrite G. ring.
Qed.
Lemma linear_entries : forall n regions, length (eval_linear n regions) = n /\
  forall i, (i < n)%nat -> nth i (eval_linear n regions) 0 = rsum (map (lin_term i) regions).
Proof.
  intros n regions. unfold eval_linear.
  set (step := fun (f : list R) (reg : list node) => map (fun i => nth i f 0 + rsum (map (fun p => nth i (n_test p) 0 * (n_w p * n_ker p)) reg)) (seq 0 n)).
  assert (G : forall rs a, length a = n -> length (fold_left step rs a) = n /\ forall i, (i < n)%nat -> nth i (fold_left step rs a) 0 = nth i a 0 + rsum (map (lin_term i) rs)).
  { induction rs as [|r rs IH]; intros a La; cbn [fold_left map]; [split; [exact La|intros; rewrite rsum_nil; ring]|].
    destruct (IH (step a r)) as [A B]; [unfold step; rewrite map_length, seq_length; reflexivity|]. split; [exact A|].
    intros i L. rewrite B, rsum_cons by exact L. unfold step. rewrite nth_map_seq0 by exact L. unfold lin_term at 2.
    rewrite (rsum_ext _ (fun p => nth i (n_test p) 0 * (n_w p * n_ker p)) (fun p => n_w p * n_ker p * nth i (n_test p) 0)) by (intros; ring). ring. }
  destruct (G regions (repeat 0 n) (repeat_length _ _)) as [A B]. split; [exact A|]. intros i L. rewrite B, nth_repeat0 by exact L. ring.
Qed.
Lemma bilinear_entries : forall m n regions, length (eval_bilinear m n regions) = m /\ Forall (fun row => length row = n) (eval_bilinear m n regions) /\
  forall i j, (i < m)%nat -> (j < n)%nat -> nth j (nth i (eval_bilinear m n regions) []) 0 = rsum (map (bil_term i j) regions).
Proof.
  intros m n regions. unfold eval_bilinear.
  set (step := fun (f : list (list R)) (reg : list node) => map (fun i => map (fun j => nth j (nth i f []) 0 + rsum (map (fun p => nth i (n_test p) 0 * (nth j (n_trial p) 0 * (n_w p * n_ker p))) reg)) (seq 0 n)) (seq 0 m)).
  assert (G : forall rs a, length a = m -> Forall (fun row => length row = n) a -> length (fold_left step rs a) = m /\ Forall (fun row => length row = n) (fold_left step rs a) /\
     forall i j, (i < m)%nat -> (j < n)%nat -> nth j (nth i (fold_left step rs a) []) 0 = nth j (nth i a []) 0 + rsum (map (bil_term i j) rs)).
  { induction rs as [|r rs IH]; intros a La Fa; cbn [fold_left map]; [split; [exact La|split; [exact Fa|intros; rewrite rsum_nil; ring]]|].
    destruct (IH (step a r)) as [A [F B]].
    - unfold step; rewrite map_length, seq_length; reflexivity.
    - unfold step. apply Forall_map, Forall_forall. intros i _. rewrite map_length, seq_length. reflexivity.
    - split; [exact A|split; [exact F|]].
      intros i j L L'. rewrite B, rsum_cons by assumption. unfold step. rewrite !nth_map_seq0 by assumption. unfold bil_term at 2.
      rewrite (rsum_ext _ (fun p => nth i (n_test p) 0 * (nth j (n_trial p) 0 * (n_w p * n_ker p))) (fun p => n_w p * n_ker p * nth i (n_test p) 0 * nth j (n_trial p) 0)) by (intros; ring). ring. }
  destruct (G regions (repeat (repeat 0 n) m) (repeat_length _ _)) as [A [F B]].
  { apply Forall_forall. intros r I. apply repeat_spec in I. subst. apply repeat_length. }
  split; [exact A|split; [exact F|]]. intros i j L L'. rewrite B by assumption. rewrite !nth_repeat0 by assumption. ring.
Qed.
Lemma rsum_nonneg : forall X (f : X -> R) l, (forall x, In x l -> 0 <= f x) -> 0 <= rsum (map f l).
Proof.
  induction l as [|x l IH]; intros A; cbn [map]; [rewrite rsum_nil; lra|]. rewrite rsum_cons. assert (B := A x (or_introl eq_refl)). assert (C := IH (fun y i => A y (or_intror i))). lra.
Qed.
Lemma rsum_zero_all : forall X (f : X -> R) l, (forall x, In x l -> 0 <= f x) -> rsum (map f l) = 0 -> forall x, In x l -> f x = 0.
Proof.
  induction l as [|x l IH]; intros A E y I; [destruct I|]. cbn [map] in E. rewrite rsum_cons in E.
  assert (B := A x (or_introl eq_refl)). assert (C := rsum_nonneg _ f l (fun y i => A y (or_intror i))).
  destruct I as [<-|I]; [lra|]. apply IH; [intros; apply A; right; assumption|lra|exact I].
Qed.

(** ** The six-point rule *)
Lemma six_moments : forall k, (k < 12)%nat -> Rabs (quadrature1 (unit_rule (gauss_ref 6)) (fun x => x ^ k) - 1 / INR (S k)) <= 0.00000000001.
Proof.
  intros k L. cbn [gauss_ref unit_rule map]. rewrite !quadrature1_cons, quadrature1_nil. cbn [fst snd].
  do 12 (destruct k as [|k]; [cbn [pow INR]; apply Rabs_le; lra|]). lia.
Qed.
Lemma six_square : quadrature1 (unit_rule (gauss_ref 6)) (fun x => x ^ 2) <> 1 / 3.
Proof. cbn [gauss_ref unit_rule map]. rewrite !quadrature1_cons, quadrature1_nil. cbn [fst snd pow]. lra. Qed.
Lemma six_error : forall c I, Forall (fun t => (snd t < 12)%nat) c -> integral (fun x => rsum (map (fun t => fst t * x ^ snd t) c)) 0 1 I ->
  Rabs (quadrature1 (unit_rule (gauss_ref 6)) (fun x => rsum (map (fun t => fst t * x ^ snd t) c)) - I) <= 0.00000000001 * rsum (map (fun t => Rabs (fst t)) c).
Proof.
  intros c I Fc A.
  assert (E : I = rsum (map (fun t => fst t * (1 / INR (S (snd t)))) c)).
  { apply (integral_unique _ _ 0 1 _ _ (fun x => eq_refl) A).
    exists (fun x => rsum (map (fun t => fst t * (x ^ S (snd t) / INR (S (snd t)))) c)). split.
    - apply (antiderivative_sum _ (fun t x => fst t * (x ^ S (snd t) / INR (S (snd t)))) (fun t x => fst t * x ^ snd t)). intros t _. apply antiderivative_scal, antiderivative_power.
    - rewrite (rsum_ext _ (fun t => fst t * (0 ^ S (snd t) / INR (S (snd t)))) (fun _ => 0)).
      + rewrite rsum_zero, Rminus_0_r. apply rsum_ext. intros t _. rewrite pow1. reflexivity.
      + intros t _. rewrite pow_i by lia. field. apply not_0_INR. lia. }
  subst I. clear A. rewrite quadrature1_sum.
  induction Fc as [|t c Ht Fc IH]; cbn [map].
  - rewrite !rsum_nil, Rmult_0_r, Rminus_0_r, Rabs_R0. lra.
  - rewrite !rsum_cons, quadrature1_scal.
    assert (M := six_moments (snd t) Ht).
    set (m := quadrature1 (unit_rule (gauss_ref 6)) (fun x => x ^ snd t)) in *.
    set (Q := rsum (map (fun t0 => quadrature1 (unit_rule (gauss_ref 6)) (fun x => fst t0 * x ^ snd t0)) c)) in *.
    set (E := rsum (map (fun t0 => fst t0 * (1 / INR (S (snd t0)))) c)) in *.
    replace (fst t * m + Q - (fst t * (1 / INR (S (snd t))) + E)) with (fst t * (m - 1 / INR (S (snd t))) + (Q - E)) by ring.
    eapply Rle_trans; [apply Rabs_triang|]. rewrite Rabs_mult, Rmult_plus_distr_l. apply Rplus_le_compat; [|exact IH].
    rewrite (Rmult_comm 0.00000000001). apply Rmult_le_compat_l; [apply Rabs_pos|exact M].
Qed.

(** Points of the unit square are mapped into the quadrilateral *)
Lemma map_inside : forall q s t, strictly_convex q -> 0 <= s <= 1 -> 0 <= t <= 1 -> inside q (quad_map q s t).
Proof.
  intros [[[sw se] ne] nw] s t [C1 [C2 [C3 C4]]] Hs Ht. unfold inside.
  assert (E1 : cross sw se (quad_map (sw, se, ne, nw) s t) = t * (s * cross sw se ne + (1 - s) * cross nw sw se)) by (unfold cross, quad_map, bilinear; cbn [fst snd]; ring).
  assert (E2 : cross se ne (quad_map (sw, se, ne, nw) s t) = (1 - s) * (t * cross se ne nw + (1 - t) * cross sw se ne)) by (unfold cross, quad_map, bilinear; cbn [fst snd]; ring).
  assert (E3 : cross ne nw (quad_map (sw, se, ne, nw) s t) = (1 - t) * ((1 - s) * cross ne nw sw + s * cross se ne nw)) by (unfold cross, quad_map, bilinear; cbn [fst snd]; ring).
  assert (E4 : cross nw sw (quad_map (sw, se, ne, nw) s t) = s * (t * cross ne nw sw + (1 - t) * cross nw sw se)) by (unfold cross, quad_map, bilinear; cbn [fst snd]; ring).
  rewrite E1, E2, E3, E4. repeat split; apply Rmult_le_pos; try lra; apply Rplus_le_le_0_compat; apply Rmult_le_pos; lra.
Qed.
