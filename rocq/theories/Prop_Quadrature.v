(** * C45-C47: quadrature rules, mapped rules, local forms

    [integral], [integral2], [poly], [area], ... are in SpecQuadrature.v. *)
From Coq Require Import List Reals Lra Lia Psatz.
From Verif Require Import Tree Quadrature SpecQuadrature QuadratureFacts QuadratureRules QuadratureMap QuadratureGreen QuadratureForm.
Import ListNotations.
Open Scope R_scope.

(** ** C45: the rules on the reference interval and square *)
Theorem C45_interval : forall n, (1 <= n <= 5)%nat -> exists l, interval_rule n = Ok l /\ length l = n /\
  Forall (fun p => 0 < fst p < 1 /\ 0 < snd p) l /\
  forall f, poly (2 * n) f -> integral f 0 1 (quadrature1 l f).
Proof.
  intros n L. exists (unit_rule (gauss_ref n)).
  assert (C : n = 1%nat \/ n = 2%nat \/ n = 3%nat \/ n = 4%nat \/ n = 5%nat) by lia.
  split; [destruct C as [->|[->|[->|[->| ->]]]]; reflexivity|].
  split; [destruct C as [->|[->|[->|[->| ->]]]]; reflexivity|].
  split; [apply unit_rules_inner; lia|]. apply unit_rules_exact. exact L.
Qed.
Theorem C45_square : forall n, (1 <= n <= 5)%nat -> exists l, square_rule (n * n) = Ok l /\ length l = (n * n)%nat /\
  Forall (fun p => 0 < fst (fst p) < 1 /\ 0 < snd (fst p) < 1 /\ 0 < snd p) l /\
  forall f, poly2 (2 * n) (2 * n) f -> integral2 f 0 1 0 1 (quadrature2 l f).
Proof.
  intros n L. exists (tensor (unit_rule (gauss_ref n))).
  assert (C : n = 1%nat \/ n = 2%nat \/ n = 3%nat \/ n = 4%nat \/ n = 5%nat) by lia.
  split; [destruct C as [->|[->|[->|[->| ->]]]]; reflexivity|].
  split; [destruct C as [->|[->|[->|[->| ->]]]]; reflexivity|].
  split; [apply inner_tensor, unit_rules_inner; lia|]. intros f P. rewrite tensor_product.
  apply (product_exact (2 * n) (2 * n)); try assumption; apply unit_rules_exact; exact L.
Qed.
(** The six-point rule, whose nodes and weights are decimals, is exact only up to degree one;
    its error for polynomials of degree at most 11 is at most 1e-11 times the sum of the moduli of the coefficients *)
Theorem C45_six : exists l, interval_rule 6 = Ok l /\ length l = 6%nat /\ Forall (fun p => 0 < fst p < 1 /\ 0 < snd p) l /\
  (forall f, poly 2 f -> integral f 0 1 (quadrature1 l f)) /\
  forall c I, Forall (fun t => (snd t < 12)%nat) c -> integral (fun x => rsum (map (fun t => fst t * x ^ snd t) c)) 0 1 I ->
    Rabs (quadrature1 l (fun x => rsum (map (fun t => fst t * x ^ snd t) c)) - I) <= 0.00000000001 * rsum (map (fun t => Rabs (fst t)) c).
Proof.
  exists (unit_rule (gauss_ref 6)). split; [reflexivity|]. split; [reflexivity|]. split; [apply unit_rules_inner; lia|].
  split; [apply (unit_exact2 6); lia|apply six_error].
Qed.
Theorem C45_six_refuted : exists l, interval_rule 6 = Ok l /\ ~ (forall f, poly 12 f -> integral f 0 1 (quadrature1 l f)).
Proof.
  exists (unit_rule (gauss_ref 6)). split; [reflexivity|]. intros E. apply six_square.
  transitivity (1 / INR 3); [|cbn [INR]; lra]. apply (exact_power 12); [exact E|lia].
Qed.
Theorem C45_orders : forall n, ((1 <= n <= 6)%nat <-> exists l, interval_rule n = Ok l) /\ ((n < 1 \/ 6 < n)%nat -> interval_rule n = Err AssertionError) /\
  ((exists k, (1 <= k <= 6)%nat /\ n = (k * k)%nat) <-> exists l, square_rule n = Ok l) /\ ((forall k, (1 <= k <= 6)%nat -> n <> (k * k)%nat) -> square_rule n = Err AssertionError).
Proof.
  intros n. unfold interval_rule, square_rule.
  assert (A : existsb (Nat.eqb n) [1; 2; 3; 4; 5; 6]%nat = true <-> (1 <= n <= 6)%nat).
  { rewrite existsb_exists. split.
    - intros [x [I E]]. apply Nat.eqb_eq in E. subst x. cbn in I. lia.
    - intros L. exists n. split; [cbn; lia|apply Nat.eqb_refl]. }
  assert (B : existsb (Nat.eqb n) [1; 4; 9; 16; 25; 36]%nat = true <-> exists k, (1 <= k <= 6)%nat /\ n = (k * k)%nat).
  { rewrite existsb_exists. split.
    - intros [x [I E]]. apply Nat.eqb_eq in E. subst x. cbn in I.
      destruct I as [<-|[<-|[<-|[<-|[<-|[<-|[]]]]]]]; [exists 1%nat|exists 2%nat|exists 3%nat|exists 4%nat|exists 5%nat|exists 6%nat]; split; lia.
    - intros [k [L ->]]. exists (k * k)%nat. split; [|apply Nat.eqb_refl].
      assert (C : k = 1%nat \/ k = 2%nat \/ k = 3%nat \/ k = 4%nat \/ k = 5%nat \/ k = 6%nat) by lia. cbn.
      destruct C as [->|[->|[->|[->|[->| ->]]]]]; cbn; tauto. }
  destruct (existsb (Nat.eqb n) [1; 2; 3; 4; 5; 6]%nat); destruct (existsb (Nat.eqb n) [1; 4; 9; 16; 25; 36]%nat).
  - split; [split; [intros _; eexists; reflexivity|intros _; apply A; reflexivity]|]. split; [assert (X := proj1 A eq_refl); lia|].
    split; [split; [intros _; eexists; reflexivity|intros _; apply B; reflexivity]|]. intros N. destruct (proj1 B eq_refl) as [k [L E]]. destruct (N k L E).
  - split; [split; [intros _; eexists; reflexivity|intros _; apply A; reflexivity]|]. split; [assert (X := proj1 A eq_refl); lia|].
    split; [split; [intros X; apply B in X; discriminate|intros [l X]; discriminate]|reflexivity].
  - split; [split; [intros X; apply A in X; discriminate|intros [l X]; discriminate]|]. split; [reflexivity|].
    split; [split; [intros _; eexists; reflexivity|intros _; apply B; reflexivity]|]. intros N. destruct (proj1 B eq_refl) as [k [L E]]. destruct (N k L E).
  - split; [split; [intros X; apply A in X; discriminate|intros [l X]; discriminate]|]. split; [reflexivity|].
    split; [split; [intros X; apply B in X; discriminate|intros [l X]; discriminate]|reflexivity].
Qed.

(** ** C46: rules mapped to cells and half-edges *)
Theorem C46_interval : forall n l x0 x1, (1 <= n <= 5)%nat -> interval_rule n = Ok l ->
  (forall f, poly (2 * n) f -> integral f x0 x1 (quadrature1 (map_interval x0 x1 l) f)) /\
  (x0 < x1 -> Forall (fun p => x0 < fst p < x1 /\ 0 < snd p) (map_interval x0 x1 l)).
Proof.
  intros n l x0 x1 L E. destruct (C45_interval n L) as [l' [E' [_ [Fo Ex]]]]. rewrite E in E'. injection E' as <-. split.
  - apply (map_interval_exact (2 * n)). exact Ex.
  - intros X. unfold map_interval. apply Forall_map. eapply Forall_impl; [|exact Fo]. intros p [P W]. cbn [fst snd]. nra.
Qed.
(** A rule scaled to a sub-interval or sub-square of the reference cell *)
Theorem C46_scale : forall n l l2 p px py h, (1 <= n <= 5)%nat -> interval_rule n = Ok l -> square_rule (n * n) = Ok l2 ->
  (forall f, poly (2 * n) f -> integral f p (p + h) (quadrature1 (scale1 p h l) f)) /\
  (forall f, poly2 (2 * n) (2 * n) f -> integral2 f px (px + h) py (py + h) (quadrature2 (scale2 (px, py) h l2) f)).
Proof.
  intros n l l2 p px py h L E E2. destruct (C45_interval n L) as [l' [E' [_ [_ Ex]]]]. rewrite E in E'. injection E' as <-.
  assert (G : forall p, exact (2 * n) (scale1 p h l) p (p + h)).
  { intros u f P. assert (X := exact_affine (2 * n) l 0 1 u h Ex f P). rewrite Rmult_0_r, Rplus_0_r, Rmult_1_r in X. exact X. }
  split; [apply G|]. intros f P.
  assert (T : l2 = tensor l).
  { assert (C : n = 1%nat \/ n = 2%nat \/ n = 3%nat \/ n = 4%nat \/ n = 5%nat) by lia.
    destruct C as [->|[->|[->|[->| ->]]]]; unfold interval_rule in E; unfold square_rule in E2; cbn [existsb Nat.eqb orb Nat.mul Nat.add] in E, E2; injection E as <-; injection E2 as <-; reflexivity. }
  assert (Q : quadrature2 (scale2 (px, py) h l2) f = quadrature2 (product (scale1 px h l) (scale1 py h l)) f).
  { subst l2. unfold quadrature2, scale2, tensor, product, scale1. rewrite map_map, !rsum_concat, map_map. apply rsum_ext. intros u _. rewrite !map_map. apply rsum_ext.
    intros v _. cbn [fst snd pow]. ring. }
  rewrite Q. apply (product_exact (2 * n) (2 * n)); [apply G|apply G|exact P].
Qed.
(** Rectangular cells: the nodes are inside, the weights positive, and the rule is exact *)
Theorem C46_rectangle : forall n l a b c d, (1 <= n <= 5)%nat -> square_rule (n * n) = Ok l ->
  forall f, poly2 (2 * n) (2 * n) f -> integral2 f a b c d (quadrature2 (map_quad (rectangle a b c d) l) f).
Proof.
  intros n l a b c d L E f P. assert (T : l = tensor (unit_rule (gauss_ref n))).
  { assert (C : n = 1%nat \/ n = 2%nat \/ n = 3%nat \/ n = 4%nat \/ n = 5%nat) by lia.
    destruct C as [->|[->|[->|[->| ->]]]]; unfold square_rule in E; cbn [existsb Nat.eqb orb Nat.mul Nat.add] in E; injection E as <-; reflexivity. }
  subst l. rewrite rectangle_rule. apply (product_exact (2 * n) (2 * n)); try assumption; apply map_interval_exact, unit_rules_exact; exact L.
Qed.
Lemma square_rule_tensor : forall n l, (1 <= n <= 6)%nat -> square_rule (n * n) = Ok l -> l = tensor (unit_rule (gauss_ref n)).
Proof.
  intros n l L E. assert (C : n = 1%nat \/ n = 2%nat \/ n = 3%nat \/ n = 4%nat \/ n = 5%nat \/ n = 6%nat) by lia.
  destruct C as [->|[->|[->|[->|[->| ->]]]]]; unfold square_rule in E; cbn [existsb Nat.eqb orb Nat.mul Nat.add] in E; injection E as <-; reflexivity.
Qed.
(** Strictly convex cells: nodes inside, positive weights, total weight the area *)
Theorem C46_quadrilateral : forall n l q, (1 <= n <= 6)%nat -> square_rule (n * n) = Ok l -> strictly_convex q ->
  Forall (fun p => inside q (fst p) /\ 0 < snd p) (map_quad q l) /\ rsum (map snd (map_quad q l)) = area q.
Proof.
  intros n l q L E C. apply square_rule_tensor in E; [|exact L]. subst l. split; [|apply quad_area, unit_exact2; exact L].
  unfold map_quad. apply Forall_map. eapply Forall_impl; [|apply inner_tensor, unit_rules_inner; exact L]. intros p [P1 [P2 W]]. cbn [fst snd]. split.
  - rewrite <- surjective_pairing. apply map_inside; [exact C|lra|lra].
  - apply Rmult_lt_0_compat; [exact W|]. apply det_positive; assumption.
Qed.
(** For every quadrilateral and every polynomial f of total degree at most 2n - 2 the rule returns the
    integral of F dy along the boundary, counterclockwise, for an F with dF/dx = f: the integral
    of f over the cell, by Green's theorem *)
Theorem C46_green : forall n l sw se ne nw f, (1 <= n <= 5)%nat -> square_rule (n * n) = Ok l -> poly_total (2 * n - 1) f ->
  exists F I0 I1 I2 I3, poly_total (2 * n) F /\ (forall y, antiderivative (fun x => F x y) (fun x => f x y)) /\
  edge_integral F sw se I0 /\ edge_integral F se ne I1 /\ edge_integral F ne nw I2 /\ edge_integral F nw sw I3 /\
  quadrature2 (map_quad (sw, se, ne, nw) l) f = I0 + I1 + I2 + I3.
Proof.
  intros n l sw se ne nw f L E P. apply square_rule_tensor in E; [|lia]. subst l.
  destruct (green sw se ne nw (2 * n - 1) f P) as [F [I0 [I1 [I2 [I3 [PF [A [E0 [E1 [E2 [E3 G]]]]]]]]]]].
  exists F, I0, I1, I2, I3. replace (S (2 * n - 1)) with (2 * n)%nat in PF by lia. do 6 (split; [assumption|]).
  apply (integral2_unique _ _ 0 1 0 1 _ _ (fun s t => eq_refl)) with (2 := G).
  apply (quad_exact (2 * n - 1)); [|exact P]. replace (S (2 * n - 1)) with (2 * n)%nat by lia. apply unit_rules_exact. exact L.
Qed.
(** Half-edges: line integrals with respect to arc length *)
Theorem C46_edge : forall n l b h, (1 <= n <= 5)%nat -> interval_rule n = Ok l ->
  (forall f, poly_total (2 * n) f ->
    integral (fun t => f (fst b + (fst h - fst b) * t) (snd b + (snd h - snd b) * t) * distance b h) 0 1 (quadrature2 (map_edge b h l) f)) /\
  rsum (map snd (map_edge b h l)) = distance b h.
Proof.
  intros n l b h L E. destruct (C45_interval n L) as [l' [E' [_ [_ Ex]]]]. rewrite E in E'. injection E' as <-. split.
  - intros f. apply (edge_exact (2 * n)). exact Ex.
  - apply edge_weights. intros f P. apply Ex. apply (poly_mono 1); [lia|exact P].
Qed.
(** The nodes at which the basis functions of a cell are evaluated on its i-th half-edge are those of the half-edge rule *)
Theorem C46_edge_nodes : forall q i l, (i < 4)%nat -> edge_nodes q i l = map fst (map_edge (fst (edge q i)) (snd (edge q i)) l).
Proof. exact edge_nodes_ok. Qed.

(** ** C47: local forms *)
Definition all_nodes (regions : list (list node)) : list node := concat regions.
(** the value at a node of the combination of the test (trial) functions with coefficients v *)
Definition test_value (m : nat) (v : nat -> R) (p : node) : R := rsum (map (fun i => v i * nth i (n_test p) 0) (seq 0 m)).
Definition trial_value (m : nat) (v : nat -> R) (p : node) : R := rsum (map (fun i => v i * nth i (n_trial p) 0) (seq 0 m)).

Theorem C47_constant : forall regions, eval_constant regions = rsum (map (fun p => n_w p * n_ker p) (all_nodes regions)).
Proof.
  intros. rewrite constant_sum. unfold all_nodes. rewrite <- (map_id regions) at 2. rewrite (rsum_concat _ _ _ (fun r => r)). reflexivity.
Qed.
Theorem C47_linear : forall m regions v, length (eval_linear m regions) = m /\
  rsum (map (fun i => v i * nth i (eval_linear m regions) 0) (seq 0 m)) =
  rsum (map (fun p => n_w p * n_ker p * test_value m v p) (all_nodes regions)).
Proof.
  intros m regions v. destruct (linear_entries m regions) as [A B]. split; [exact A|].
  transitivity (rsum (map (fun i => rsum (map (fun reg => v i * lin_term i reg) regions)) (seq 0 m))).
  { apply rsum_ext. intros i I. apply in_seq in I. rewrite B by lia. rewrite rsum_scal. reflexivity. }
  rewrite rsum_swap. unfold all_nodes. rewrite <- (map_id regions) at 2. rewrite (rsum_concat _ _ _ (fun r => r)). apply rsum_ext. intros reg _.
  transitivity (rsum (map (fun i => rsum (map (fun p => v i * (n_w p * n_ker p * nth i (n_test p) 0)) reg)) (seq 0 m))).
  { apply rsum_ext. intros i _. rewrite rsum_scal. reflexivity. }
  rewrite rsum_swap. apply rsum_ext. intros p _. unfold test_value. rewrite <- rsum_scal. apply rsum_ext. intros; ring.
Qed.
Theorem C47_bilinear : forall m n regions u v, length (eval_bilinear m n regions) = m /\ Forall (fun row => length row = n) (eval_bilinear m n regions) /\
  rsum (map (fun i => rsum (map (fun j => v i * nth j (nth i (eval_bilinear m n regions) []) 0 * u j) (seq 0 n))) (seq 0 m)) =
  rsum (map (fun p => n_w p * n_ker p * test_value m v p * trial_value n u p) (all_nodes regions)).
Proof.
  intros m n regions u v. destruct (bilinear_entries m n regions) as [A [F B]]. split; [exact A|split; [exact F|]].
  transitivity (rsum (map (fun i => rsum (map (fun j => rsum (map (fun p => v i * u j * (n_w p * n_ker p * nth i (n_test p) 0 * nth j (n_trial p) 0)) (all_nodes regions))) (seq 0 n))) (seq 0 m))).
  { apply rsum_ext. intros i I. apply rsum_ext. intros j J. apply in_seq in I, J. rewrite B by lia. rewrite rsum_scal. unfold all_nodes.
    rewrite <- (map_id regions) at 2. rewrite (rsum_concat _ _ _ (fun r => r)). change (fun x => rsum (map (fun p => n_w p * n_ker p * nth i (n_test p) 0 * nth j (n_trial p) 0) x)) with (bil_term i j). ring. }
  transitivity (rsum (map (fun i => rsum (map (fun p => rsum (map (fun j => v i * u j * (n_w p * n_ker p * nth i (n_test p) 0 * nth j (n_trial p) 0)) (seq 0 n))) (all_nodes regions))) (seq 0 m))).
  { apply rsum_ext. intros i _. apply rsum_swap. }
  rewrite rsum_swap. apply rsum_ext. intros p _. unfold test_value, trial_value.
  set (T := rsum (map (fun j => u j * nth j (n_trial p) 0) (seq 0 n))).
  transitivity (n_w p * n_ker p * T * rsum (map (fun i => v i * nth i (n_test p) 0) (seq 0 m))); [|ring].
  rewrite <- rsum_scal. apply rsum_ext. intros i _.
  transitivity (v i * nth i (n_test p) 0 * (n_w p * n_ker p) * T); [|ring].
  unfold T. rewrite <- rsum_scal. apply rsum_ext. intros; ring.
Qed.
(** Equal test and trial functions: symmetric; with a nonnegative kernel positive semidefinite, with
    kernel exactly the combinations vanishing at the nodes where the weighted kernel does not *)
Theorem C47_symmetric : forall m regions i j, Forall (fun p => n_test p = n_trial p) (all_nodes regions) -> (i < m)%nat -> (j < m)%nat ->
  nth j (nth i (eval_bilinear m m regions) []) 0 = nth i (nth j (eval_bilinear m m regions) []) 0.
Proof.
  intros m regions i j Fo Li Lj. destruct (bilinear_entries m m regions) as [_ [_ B]]. rewrite !B by assumption. apply rsum_ext. intros reg Ir.
  apply rsum_ext. intros p Ip. rewrite Forall_forall in Fo. rewrite (Fo p); [ring|]. apply in_concat. exists reg. split; assumption.
Qed.
Theorem C47_semidefinite : forall m regions v, Forall (fun p => n_test p = n_trial p /\ 0 <= n_w p * n_ker p) (all_nodes regions) ->
  let energy := rsum (map (fun i => rsum (map (fun j => v i * nth j (nth i (eval_bilinear m m regions) []) 0 * v j) (seq 0 m))) (seq 0 m)) in
  0 <= energy /\ (energy = 0 <-> forall p, In p (all_nodes regions) -> 0 < n_w p * n_ker p -> test_value m v p = 0).
Proof.
  intros m regions v Fo. cbn zeta. rewrite (proj2 (proj2 (C47_bilinear m m regions v v))). rewrite Forall_forall in Fo.
  assert (E : forall p, In p (all_nodes regions) -> n_w p * n_ker p * test_value m v p * trial_value m v p = n_w p * n_ker p * (test_value m v p * test_value m v p)).
  { intros p I. unfold trial_value, test_value. rewrite <- (proj1 (Fo p I)). ring. }
  assert (P : forall p, In p (all_nodes regions) -> 0 <= n_w p * n_ker p * test_value m v p * trial_value m v p).
  { intros p I. rewrite E by exact I. apply Rmult_le_pos; [apply Fo; exact I|]. apply Rle_0_sqr. }
  split; [apply rsum_nonneg; exact P|]. split.
  - intros Z p I W. assert (X := rsum_zero_all _ _ _ P Z p I). cbn beta in X. rewrite E in X by exact I.
    apply Rmult_integral in X. destruct X as [X|X]; [lra|]. apply Rmult_integral in X. tauto.
  - intros A. rewrite (rsum_ext _ _ (fun _ => 0)); [apply rsum_zero|]. intros p I. rewrite E by exact I.
    destruct (Rle_lt_or_eq_dec 0 _ (proj2 (Fo p I))) as [W|W]; [rewrite (A p I W); ring|rewrite <- W; ring].
Qed.
(** On an interval, with n-point rule and polynomial kernel, test and trial functions of degrees
    a, b, c with a + b + c < 2n, the entries of the local matrix are the integrals of kernel times
    test function times trial function; same for vectors and constants *)
Definition poly_node (K : R -> R) (phi psi : list (R -> R)) (p : R * R) : node :=
  mkN (snd p) (K (fst p)) (map (fun f => f (fst p)) phi) (map (fun f => f (fst p)) psi).
Theorem C47_interval : forall n l x0 x1 K phi psi a b c, (1 <= n <= 5)%nat -> interval_rule n = Ok l ->
  poly (S a) K -> Forall (poly (S b)) phi -> Forall (poly (S c)) psi ->
  let reg := map (poly_node K phi psi) (map_interval x0 x1 l) in
  ((a < 2 * n)%nat -> integral K x0 x1 (eval_constant [reg])) /\
  ((a + b < 2 * n)%nat -> forall i, (i < length phi)%nat -> integral (fun x => K x * nth i phi (fun _ => 0) x) x0 x1 (nth i (eval_linear (length phi) [reg]) 0)) /\
  ((a + b + c < 2 * n)%nat -> forall i j, (i < length phi)%nat -> (j < length psi)%nat ->
     integral (fun x => K x * nth i phi (fun _ => 0) x * nth j psi (fun _ => 0) x) x0 x1 (nth j (nth i (eval_bilinear (length phi) (length psi) [reg]) []) 0)).
Proof.
  intros n l x0 x1 K phi psi a b c L E PK Pphi Ppsi reg. destruct (C46_interval n l x0 x1 L E) as [Ex _].
  assert (Vphi : forall p i, nth i (n_test (poly_node K phi psi p)) 0 = nth i phi (fun _ => 0) (fst p)).
  { intros p i. cbn [poly_node n_test]. exact (map_nth (fun f : R -> R => f (fst p)) phi (fun _ => 0) i). }
  assert (Vpsi : forall p i, nth i (n_trial (poly_node K phi psi p)) 0 = nth i psi (fun _ => 0) (fst p)).
  { intros p i. cbn [poly_node n_trial]. exact (map_nth (fun f : R -> R => f (fst p)) psi (fun _ => 0) i). }
  rewrite Forall_forall in Pphi, Ppsi.
  split; [|split].
  - intros D. rewrite constant_sum. cbn [map]. rewrite rsum_cons, rsum_nil, Rplus_0_r. unfold reg. rewrite map_map. apply Ex. apply (poly_mono (S a)); [lia|exact PK].
  - intros D i Li. rewrite (proj2 (linear_entries _ _)) by exact Li. cbn [map]. rewrite rsum_cons, rsum_nil, Rplus_0_r. unfold lin_term, reg. rewrite map_map.
    rewrite (rsum_ext _ _ (fun p => snd p * (K (fst p) * nth i phi (fun _ => 0) (fst p)))) by (intros p _; rewrite Vphi; cbn [poly_node n_w n_ker]; ring).
    apply (Ex (fun x => K x * nth i phi (fun _ => 0) x)). apply (poly_mono (S (a + b))); [lia|]. apply poly_mul; [exact PK|]. apply Pphi, nth_In. exact Li.
  - intros D i j Li Lj. rewrite (proj2 (proj2 (bilinear_entries _ _ _))) by assumption. cbn [map]. rewrite rsum_cons, rsum_nil, Rplus_0_r. unfold bil_term, reg. rewrite map_map.
    rewrite (rsum_ext _ _ (fun p => snd p * (K (fst p) * nth i phi (fun _ => 0) (fst p) * nth j psi (fun _ => 0) (fst p)))) by (intros p _; rewrite Vphi, Vpsi; cbn [poly_node n_w n_ker]; ring).
    apply (Ex (fun x => K x * nth i phi (fun _ => 0) x * nth j psi (fun _ => 0) x)). apply (poly_mono (S (a + b + c))); [lia|].
    apply poly_mul; [|apply Ppsi, nth_In; exact Lj]. apply poly_mul; [exact PK|]. apply Pphi, nth_In. exact Li.
Qed.
(** On a quadrilateral, with n^2-point rule; the kernel is a polynomial in the plane of total degree a,
    the test and trial functions are given by polynomials on the reference square of degrees b and c in each variable *)
Definition quad_node (q : quadr) (K : R -> R -> R) (phi psi : list (R -> R -> R)) (p : R * R * R) : node :=
  let s := fst (fst p) in let t := snd (fst p) in
  mkN (snd p * quad_jac_det q s t) (K (image_x q s t) (image_y q s t)) (map (fun f => f s t) phi) (map (fun f => f s t) psi).
Theorem C47_quadrilateral : forall n l q K phi psi a b c, (1 <= n <= 5)%nat -> square_rule (n * n) = Ok l ->
  poly_total (S a) K -> Forall (poly2 (S b) (S b)) phi -> Forall (poly2 (S c) (S c)) psi -> (a + b + c + 1 < 2 * n)%nat ->
  let reg := map (quad_node q K phi psi) l in
  forall i j, (i < length phi)%nat -> (j < length psi)%nat ->
     integral2 (fun s t => K (image_x q s t) (image_y q s t) * nth i phi (fun _ _ => 0) s t * nth j psi (fun _ _ => 0) s t * quad_jac_det q s t)
       0 1 0 1 (nth j (nth i (eval_bilinear (length phi) (length psi) [reg]) []) 0).
Proof.
  intros n l q K phi psi a b c L E PK Pphi Ppsi D reg i j Li Lj.
  assert (Ex : forall f, poly2 (2 * n) (2 * n) f -> integral2 f 0 1 0 1 (quadrature2 l f)).
  { destruct (C45_square n L) as [l' [E' [_ [_ X]]]]. rewrite E in E'. injection E' as <-. exact X. }
  rewrite Forall_forall in Pphi, Ppsi.
  rewrite (proj2 (proj2 (bilinear_entries _ _ _))) by assumption. cbn [map]. rewrite rsum_cons, rsum_nil, Rplus_0_r. unfold bil_term, reg. rewrite map_map.
  set (g := fun s t => K (image_x q s t) (image_y q s t) * nth i phi (fun _ _ => 0) s t * nth j psi (fun _ _ => 0) s t * quad_jac_det q s t).
  rewrite (rsum_ext _ _ (fun p => snd p * g (fst (fst p)) (snd (fst p)))).
  - apply (Ex g). apply (poly2_mono (S (a + b + c + 1)) (S (a + b + c + 1))); [lia|lia|].
    apply (poly2_mul (a + b + c) (a + b + c) 1 1 (fun s t => K (image_x q s t) (image_y q s t) * nth i phi (fun _ _ => 0) s t * nth j psi (fun _ _ => 0) s t) (fun s t => quad_jac_det q s t)); [|apply det_poly].
    apply (poly2_mul (a + b) (a + b) c c (fun s t => K (image_x q s t) (image_y q s t) * nth i phi (fun _ _ => 0) s t) (nth j psi (fun _ _ => 0))); [|apply Ppsi, nth_In; exact Lj].
    apply (poly2_mul a a b b (fun s t => K (image_x q s t) (image_y q s t)) (nth i phi (fun _ _ => 0))); [|apply Pphi, nth_In; exact Li].
    destruct (map_xy_poly q) as [PX PY]. exact (poly_total_comp (S a) K (image_x q) (image_y q) PK PX PY).
  - intros p _. unfold g. cbn [quad_node n_w n_ker n_test n_trial].
    rewrite (map_nth (fun f : R -> R -> R => f (fst (fst p)) (snd (fst p))) phi (fun _ _ => 0) i).
    rewrite (map_nth (fun f : R -> R -> R => f (fst (fst p)) (snd (fst p))) psi (fun _ _ => 0) j). ring.
Qed.

(** ** Non-trivial cases *)
(** the two-point rule integrates the cube: 1/4 *)
Example two_point_cube : exists l, interval_rule 2 = Ok l /\ quadrature1 l (fun x => x ^ 3) = 1 / 4.
Proof.
  destruct (C45_interval 2 ltac:(lia)) as [l [E [_ [_ X]]]]. exists l. split; [exact E|].
  replace (1 / 4) with (1 / INR 4) by (cbn [INR]; lra). apply (exact_power 4); [exact X|lia].
Qed.
(** a strictly convex quadrilateral that is not a parallelogram, of area 7/2 *)
Definition trapezium : quadr := ((0, 0), (2, 0), (3, 2), (0, 1)).
Example trapezium_convex : strictly_convex trapezium /\ area trapezium = 7 / 2.
Proof. unfold strictly_convex, area, trapezium, cross. cbn [fst snd]. lra. Qed.
(** the local mass matrix of the linear element on [2, 5], two-point rule *)
Definition hat0 (x : R) : R := (5 - x) / 3.
Definition hat1 (x : R) : R := (x - 2) / 3.
Example mass_matrix : exists l, interval_rule 2 = Ok l /\
  let A := eval_bilinear 2 2 [map (poly_node (fun _ => 1) [hat0; hat1] [hat0; hat1]) (map_interval 2 5 l)] in
  nth 0 (nth 0 A []) 0 = 1 /\ nth 1 (nth 0 A []) 0 = 1 / 2 /\ nth 1 (nth 1 A []) 0 = 1.
Proof.
  destruct (C45_interval 2 ltac:(lia)) as [l [E _]]. exists l. split; [exact E|].
  assert (P0 : poly 2 hat0). { exists [(5 / 3, 0%nat); (- 1 / 3, 1%nat)]. split; [repeat constructor|]. intros x. cbn [map]. rewrite !rsum_cons, rsum_nil. cbn [fst snd pow]. unfold hat0. field. }
  assert (P1 : poly 2 hat1). { exists [(- 2 / 3, 0%nat); (1 / 3, 1%nat)]. split; [repeat constructor|]. intros x. cbn [map]. rewrite !rsum_cons, rsum_nil. cbn [fst snd pow]. unfold hat1. field. }
  assert (F : Forall (poly 2) [hat0; hat1]) by (repeat constructor; assumption).
  destruct (C47_interval 2 l 2 5 (fun _ => 1) [hat0; hat1] [hat0; hat1] 0 1 1 ltac:(lia) E (poly_const 1 1 ltac:(lia)) F F) as [_ [_ B]].
  assert (G : forall f I c0 c1 c2, (forall x, f x = c0 * x ^ 0 + c1 * x ^ 1 + c2 * x ^ 2) -> integral f 2 5 I -> I = 3 * c0 + 21 / 2 * c1 + 39 * c2).
  { intros f I c0 c1 c2 Hf Hi. apply (integral_unique f _ 2 5 _ _ (fun x => eq_refl) Hi).
    apply (integral_ext (fun x => c0 * x ^ 0 + c1 * x ^ 1 + c2 * x ^ 2)); [intros; symmetry; apply Hf|].
    apply (integral_value _ 2 5 (c0 * (5 ^ 1 / INR 1 - 2 ^ 1 / INR 1) + c1 * (5 ^ 2 / INR 2 - 2 ^ 2 / INR 2) + c2 * (5 ^ 3 / INR 3 - 2 ^ 3 / INR 3))); [cbn [pow INR]; field|].
    apply (integral_plus (fun x => c0 * x ^ 0 + c1 * x ^ 1) (fun x => c2 * x ^ 2)); [apply (integral_plus (fun x => c0 * x ^ 0) (fun x => c1 * x ^ 1))|]; apply integral_scal, integral_power. }
  cbv zeta. split; [|split].
  - eapply eq_trans; [eapply (G _ _ (25 / 9) (- 10 / 9) (1 / 9)); [|apply (B ltac:(lia) 0%nat 0%nat ltac:(cbn; lia) ltac:(cbn; lia))]; intros x; cbn [nth pow]; unfold hat0; field|lra].
  - eapply eq_trans; [eapply (G _ _ (- 10 / 9) (7 / 9) (- 1 / 9)); [|apply (B ltac:(lia) 0%nat 1%nat ltac:(cbn; lia) ltac:(cbn; lia))]; intros x; cbn [nth pow]; unfold hat0, hat1; field|lra].
  - eapply eq_trans; [eapply (G _ _ (4 / 9) (- 4 / 9) (1 / 9)); [|apply (B ltac:(lia) 1%nat 1%nat ltac:(cbn; lia) ltac:(cbn; lia))]; intros x; cbn [nth pow]; unfold hat1; field|lra].
Qed.
(** a polynomial of total degree 2 for C46_green with n = 2 *)
Example green_case : poly_total 3 (fun x y => x * y + 1).
Proof. exists [(1, 1%nat, 1%nat); (1, 0%nat, 0%nat)]. split; [repeat constructor|]. intros x y. cbn [map]. rewrite !rsum_cons, rsum_nil. cbn [fst snd pow]. ring. Qed.

Print Assumptions C45_interval.
Print Assumptions C45_square.
Print Assumptions C45_six.
Print Assumptions C45_six_refuted.
Print Assumptions C45_orders.
Print Assumptions C46_interval.
Print Assumptions C46_scale.
Print Assumptions C46_rectangle.
Print Assumptions C46_quadrilateral.
Print Assumptions C46_green.
Print Assumptions C46_edge.
Print Assumptions C46_edge_nodes.
Print Assumptions C47_constant.
Print Assumptions C47_linear.
Print Assumptions C47_bilinear.
Print Assumptions C47_symmetric.
Print Assumptions C47_semidefinite.
Print Assumptions C47_interval.
Print Assumptions C47_quadrilateral.
