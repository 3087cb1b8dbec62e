(** * Integrals over quadrilaterals as boundary integrals *)
From Coq Require Import List Reals Lra Lia Arith Psatz.
From Verif Require Import Tree Quadrature SpecQuadrature QuadratureFacts QuadratureRules QuadratureMap.
Import ListNotations.
Open Scope R_scope.

Lemma integral_scal : forall f a b I k, integral f a b I -> integral (fun x => k * f x) a b (k * I).
Proof. intros f a b I k [P [A ->]]. exists (fun x => k * P x). split; [apply antiderivative_scal; exact A|ring]. Qed.
Lemma integral_plus : forall f g a b I J, integral f a b I -> integral g a b J -> integral (fun x => f x + g x) a b (I + J).
Proof. intros f g a b I J [P [A ->]] [Q [B ->]]. exists (fun x => P x + Q x). split; [|ring]. intros x. apply (derivable_pt_lim_plus P Q); [apply A|apply B]. Qed.
Lemma integral_value : forall f a b I J, I = J -> integral f a b I -> integral f a b J.
Proof. intros f a b I J ->. tauto. Qed.
Lemma integral_flip : forall f I, integral f 0 1 I -> integral (fun u => f (1 - u)) 0 1 I.
Proof.
  intros f I [P [A ->]]. exists (fun u => - 1 * P (1 + -1 * u)). split.
  - apply (antiderivative_ext _ (fun u => - 1 * (-1 * f (1 + -1 * u)))); [intros x; replace (1 + -1 * x) with (1 - x) by ring; ring|].
    apply antiderivative_scal. apply antiderivative_affine. exact A.
  - replace (1 + -1 * 1) with 0 by ring. replace (1 + -1 * 0) with 1 by ring. ring.
Qed.
Lemma integral2_plus : forall f g a b c d I J, integral2 f a b c d I -> integral2 g a b c d J -> integral2 (fun x y => f x y + g x y) a b c d (I + J).
Proof.
  intros f g a b c d I J [G [A B]] [K [A' B']]. exists (fun y => G y + K y). split; [|apply integral_plus; assumption].
  intros y. apply (integral_plus (fun x => f x y) (fun x => g x y)); auto.
Qed.
Lemma integral2_scal : forall f a b c d I k, integral2 f a b c d I -> integral2 (fun x y => k * f x y) a b c d (k * I).
Proof.
  intros f a b c d I k [G [A B]]. exists (fun y => k * G y). split; [|apply integral_scal; assumption].
  intros y. apply (integral_scal (fun x => f x y)). auto.
Qed.
Lemma integral2_zero : forall a b c d, integral2 (fun _ _ => 0) a b c d 0.
Proof.
  intros. assert (Z : forall u v, integral (fun _ => 0) u v 0). { intros u v. exists (fun _ => 0). split; [intros x; apply derivable_pt_lim_const|ring]. }
  exists (fun _ => 0). split; [intros; apply Z|apply Z].
Qed.
Lemma integral2_sum : forall X (f : X -> R -> R -> R) (I : X -> R) a b c d l, (forall t, In t l -> integral2 (f t) a b c d (I t)) ->
  integral2 (fun x y => rsum (map (fun t => f t x y) l)) a b c d (rsum (map I l)).
Proof.
  induction l as [|t l IH]; intros A; cbn [map]; [apply integral2_zero|]. rewrite rsum_cons.
  apply (integral2_plus (f t) (fun x y => rsum (map (fun t => f t x y) l))); [apply A; left; reflexivity|apply IH; intros; apply A; right; assumption].
Qed.
Lemma integral_power : forall k a b, integral (fun x => x ^ k) a b (b ^ S k / INR (S k) - a ^ S k / INR (S k)).
Proof. intros. exists (fun x => x ^ S k / INR (S k)). split; [apply antiderivative_power|reflexivity]. Qed.
Lemma integral2_product : forall f g a b c d I J, integral f a b I -> integral g c d J -> integral2 (fun x y => f x * g y) a b c d (I * J).
Proof.
  intros f g a b c d I J A B. exists (fun y => g y * I). split.
  - intros y. apply (integral_ext (fun x => g y * f x)); [intros; ring|]. apply integral_scal. exact A.
  - apply (integral_value _ c d (I * J)); [ring|]. apply (integral_ext (fun y => I * g y)); [intros; ring|]. apply integral_scal. exact B.
Qed.
(** The order of integration does not matter *)
Lemma fubini : forall n m f a b c d I, poly2 n m f -> integral2 f a b c d I -> integral2 (fun y x => f x y) c d a b I.
Proof.
  intros n m f a b c d I [l [F H]] A.
  set (v := fun (u : R * nat * nat) => fst (fst u) * ((b ^ S (snd (fst u)) / INR (S (snd (fst u))) - a ^ S (snd (fst u)) / INR (S (snd (fst u)))) *
             (d ^ S (snd u) / INR (S (snd u)) - c ^ S (snd u) / INR (S (snd u))))).
  assert (B : integral2 f a b c d (rsum (map v l))).
  { apply (integral2_ext (fun x y => rsum (map (fun u => fst (fst u) * (x ^ snd (fst u) * y ^ snd u)) l))).
    { intros x y. rewrite H. apply rsum_ext. intros; ring. }
    apply (integral2_sum _ (fun u x y => fst (fst u) * (x ^ snd (fst u) * y ^ snd u))). intros u _. apply (integral2_scal (fun x y => x ^ snd (fst u) * y ^ snd u)).
    apply (integral2_product (fun x => x ^ snd (fst u)) (fun y => y ^ snd u)); apply integral_power. }
  rewrite (integral2_unique f f a b c d I _ (fun _ _ => eq_refl) A B).
  apply (integral2_ext (fun y x => rsum (map (fun u => fst (fst u) * (y ^ snd u * x ^ snd (fst u))) l))).
  { intros x y. rewrite H. apply rsum_ext. intros; ring. }
  assert (E : forall u, v u = fst (fst u) * ((d ^ S (snd u) / INR (S (snd u)) - c ^ S (snd u) / INR (S (snd u))) * (b ^ S (snd (fst u)) / INR (S (snd (fst u))) - a ^ S (snd (fst u)) / INR (S (snd (fst u))))))
    by (intros; unfold v; ring).
  rewrite (rsum_ext _ v _ l (fun u _ => E u)).
  apply (integral2_sum _ (fun u y x => fst (fst u) * (y ^ snd u * x ^ snd (fst u)))). intros u _. apply (integral2_scal (fun y x => y ^ snd u * x ^ snd (fst u))).
  apply (integral2_product (fun y => y ^ snd u) (fun x => x ^ snd (fst u))); apply integral_power.
Qed.

(** Some polynomial *)
Definition P2 (f : R -> R -> R) : Prop := exists n, poly2 (S n) (S n) f.
Lemma P2_plus : forall f g, P2 f -> P2 g -> P2 (fun x y => f x y + g x y).
Proof. intros f g [n A] [m B]. exists (n + m)%nat. apply poly2_plus; (eapply poly2_mono; [| |eassumption]); lia. Qed.
Lemma P2_mul : forall f g, P2 f -> P2 g -> P2 (fun x y => f x y * g x y).
Proof. intros f g [n A] [m B]. exists (n + m)%nat. apply poly2_mul; assumption. Qed.
Lemma P2_const : forall a, P2 (fun _ _ => a).
Proof. intros a. exists 0%nat. apply poly2_const; lia. Qed.
Lemma P2_pow : forall f k, P2 f -> P2 (fun x y => f x y ^ k).
Proof. intros f k A. induction k; [apply (P2_const 1)|]. cbn [pow]. apply (P2_mul f (fun x y => f x y ^ k)); assumption. Qed.
Lemma P2_22 : forall f, poly2 2 2 f -> P2 f.
Proof. intros f A. exists 1%nat. exact A. Qed.
Lemma P2_affine_s : forall c h, P2 (fun s _ => c + h * s).
Proof. intros c h. exists 1%nat. exists [(c, 0%nat, 0%nat); (h, 1%nat, 0%nat)]. split; [repeat constructor; cbn; lia|]. intros x y. cbn [map]. rewrite !rsum_cons, rsum_nil. cbn [fst snd pow]. ring. Qed.
Lemma P2_affine_t : forall c h, P2 (fun _ t => c + h * t).
Proof. intros c h. exists 1%nat. exists [(c, 0%nat, 0%nat); (h, 0%nat, 1%nat)]. split; [repeat constructor; cbn; lia|]. intros x y. cbn [map]. rewrite !rsum_cons, rsum_nil. cbn [fst snd pow]. ring. Qed.

Lemma edge_integral_ex : forall i j p r, exists I, edge_integral (fun x y => x ^ S i / INR (S i) * y ^ j) p r I.
Proof.
  intros i j p r.
  assert (P : poly (S (S i + j)) (fun u => (snd r - snd p) / INR (S i) * ((fst p + (fst r - fst p) * u) ^ S i * (snd p + (snd r - snd p) * u) ^ j))).
  { apply poly_scal. apply (poly_mul (S i) j (fun u => (fst p + (fst r - fst p) * u) ^ S i) (fun u => (snd p + (snd r - snd p) * u) ^ j)); apply poly_pow_affine. }
  destruct (poly_integrable _ _ P) as [Q A]. exists (Q 1 - Q 0). exists Q. split; [|reflexivity].
  eapply antiderivative_ext; [|exact A]. intros x. cbn. field. apply (not_0_INR (S i)). lia.
Qed.
Lemma edge_integral_back : forall F p r I, edge_integral F r p I -> edge_integral F p r (- I).
Proof.
  intros F p r I A. unfold edge_integral in *. apply integral_flip in A. apply (integral_scal _ 0 1 I (-1)) in A.
  apply (integral_value _ 0 1 (-1 * I)); [ring|]. eapply integral_ext; [|exact A]. intros u. cbn.
  replace (fst r + (fst p - fst r) * (1 - u)) with (fst p + (fst r - fst p) * u) by ring.
  replace (snd r + (snd p - snd r) * (1 - u)) with (snd p + (snd r - snd p) * u) by ring. ring.
Qed.
(** Green's theorem for a monomial *)
Lemma green_mono : forall sw se ne nw i j I0 I1 I2 I3,
  let F := fun x y => x ^ S i / INR (S i) * y ^ j in let q := (sw, se, ne, nw) in
  edge_integral F sw se I0 -> edge_integral F se ne I1 -> edge_integral F ne nw I2 -> edge_integral F nw sw I3 ->
  integral2 (fun s t => map_x q s t ^ i * map_y q s t ^ j * quad_jac_det q s t) 0 1 0 1 (I0 + I1 + I2 + I3).
Proof.
  intros sw se ne nw i j I0 I1 I2 I3 F q E0 E1 E2 E3.
  apply edge_integral_back in E2. apply edge_integral_back in E3.
  assert (A : integral2 (Us q i j) 0 1 0 1 (I1 + I3)).
  { exists (fun t => U q i j 1 t + -1 * U q i j 0 t). split.
    - intros t. exists (fun s => U q i j s t). split; [|ring]. intros s. apply D_U.
    - apply (integral_value _ 0 1 (I1 + -1 * - I3)); [ring|]. apply integral_plus.
      + eapply integral_ext; [|exact E1]. intros u. unfold F, U, q, map_x, map_y, dyt. cbn [quad_map fst snd]. unfold bilinear.
        replace (fst sw * (1 - 1) * (1 - u) + fst se * 1 * (1 - u) + fst ne * 1 * u + fst nw * (1 - 1) * u) with (fst se + (fst ne - fst se) * u) by ring.
        replace (snd sw * (1 - 1) * (1 - u) + snd se * 1 * (1 - u) + snd ne * 1 * u + snd nw * (1 - 1) * u) with (snd se + (snd ne - snd se) * u) by ring. ring.
      + apply integral_scal. eapply integral_ext; [|exact E3]. intros u. unfold F, U, q, map_x, map_y, dyt. cbn [quad_map fst snd]. unfold bilinear.
        replace (fst sw * (1 - 0) * (1 - u) + fst se * 0 * (1 - u) + fst ne * 0 * u + fst nw * (1 - 0) * u) with (fst sw + (fst nw - fst sw) * u) by ring.
        replace (snd sw * (1 - 0) * (1 - u) + snd se * 0 * (1 - u) + snd ne * 0 * u + snd nw * (1 - 0) * u) with (snd sw + (snd nw - snd sw) * u) by ring. ring. }
  assert (B : integral2 (fun t s => Vt q i j s t) 0 1 0 1 (- I2 - I0)).
  { exists (fun s => V q i j s 1 + -1 * V q i j s 0). split.
    - intros s. exists (fun t => V q i j s t). split; [|ring]. intros t. apply D_V.
    - apply (integral_value _ 0 1 (- I2 + -1 * I0)); [ring|]. apply integral_plus.
      + eapply integral_ext; [|exact E2]. intros u. unfold F, V, q, map_x, map_y, dys. cbn [quad_map fst snd]. unfold bilinear.
        replace (fst sw * (1 - u) * (1 - 1) + fst se * u * (1 - 1) + fst ne * u * 1 + fst nw * (1 - u) * 1) with (fst nw + (fst ne - fst nw) * u) by ring.
        replace (snd sw * (1 - u) * (1 - 1) + snd se * u * (1 - 1) + snd ne * u * 1 + snd nw * (1 - u) * 1) with (snd nw + (snd ne - snd nw) * u) by ring. ring.
      + apply integral_scal. eapply integral_ext; [|exact E0]. intros u. unfold F, V, q, map_x, map_y, dys. cbn [quad_map fst snd]. unfold bilinear.
        replace (fst sw * (1 - u) * (1 - 0) + fst se * u * (1 - 0) + fst ne * u * 0 + fst nw * (1 - u) * 0) with (fst sw + (fst se - fst sw) * u) by ring.
        replace (snd sw * (1 - u) * (1 - 0) + snd se * u * (1 - 0) + snd ne * u * 0 + snd nw * (1 - u) * 0) with (snd sw + (snd se - snd sw) * u) by ring. ring. }
  assert (PV : P2 (fun t s => Vt q i j s t)).
  { assert (PX : P2 (fun t s => map_x q s t)).
    { destruct (map_xy_poly q) as [[c [G H]] _]. exists 1%nat. exists (map (fun u => (fst (fst u), snd u, snd (fst u))) c). split.
      - apply Forall_map. eapply Forall_impl; [|exact G]. cbn. tauto.
      - intros x y. rewrite map_map, H. apply rsum_ext. intros u _. cbn [fst snd]. ring. }
    assert (PY : P2 (fun t s => map_y q s t)).
    { destruct (map_xy_poly q) as [_ [c [G H]]]. exists 1%nat. exists (map (fun u => (fst (fst u), snd u, snd (fst u))) c). split.
      - apply Forall_map. eapply Forall_impl; [|exact G]. cbn. tauto.
      - intros x y. rewrite map_map, H. apply rsum_ext. intros u _. cbn [fst snd]. ring. }
    unfold Vt.
    apply (P2_plus (fun t s => map_x q s t ^ i * map_y q s t ^ j * dxt q s * dys q t)
             (fun t s => map_x q s t ^ S i / INR (S i) * (INR j * map_y q s t ^ pred j * dyt q s * dys q t + map_y q s t ^ j * dyst q))).
    - apply (P2_mul (fun t s => map_x q s t ^ i * map_y q s t ^ j * dxt q s) (fun t s => dys q t)); [|apply P2_affine_s].
      apply (P2_mul (fun t s => map_x q s t ^ i * map_y q s t ^ j) (fun t s => dxt q s)); [|apply P2_affine_t].
      apply (P2_mul (fun t s => map_x q s t ^ i) (fun t s => map_y q s t ^ j)); apply P2_pow; assumption.
    - apply (P2_mul (fun t s => map_x q s t ^ S i / INR (S i)) (fun t s => INR j * map_y q s t ^ pred j * dyt q s * dys q t + map_y q s t ^ j * dyst q)).
      + apply (P2_mul (fun t s => map_x q s t ^ S i) (fun t s => / INR (S i))); [apply P2_pow; assumption|apply P2_const].
      + apply (P2_plus (fun t s => INR j * map_y q s t ^ pred j * dyt q s * dys q t) (fun t s => map_y q s t ^ j * dyst q)).
        * apply (P2_mul (fun t s => INR j * map_y q s t ^ pred j * dyt q s) (fun t s => dys q t)); [|apply P2_affine_s].
          apply (P2_mul (fun t s => INR j * map_y q s t ^ pred j) (fun t s => dyt q s)); [|apply P2_affine_t].
          apply (P2_mul (fun t s => INR j) (fun t s => map_y q s t ^ pred j)); [apply P2_const|apply P2_pow; assumption].
        * apply (P2_mul (fun t s => map_y q s t ^ j) (fun t s => dyst q)); [apply P2_pow; assumption|apply P2_const]. }
  destruct PV as [n PV]. apply (fubini _ _ _ 0 1 0 1 _ PV) in B.
  apply (integral2_scal _ 0 1 0 1 _ (-1)) in B. assert (C := integral2_plus _ _ 0 1 0 1 _ _ A B).
  replace (I0 + I1 + I2 + I3) with (I1 + I3 + -1 * (- I2 - I0)) by ring.
  eapply integral2_ext; [|exact C]. intros s t. transitivity (Us q i j s t - Vt q i j s t); [ring|apply green_pointwise].
Qed.
Lemma edge_integral_sum : forall X (F : X -> R -> R -> R) (I : X -> R) p r l, (forall t, In t l -> edge_integral (F t) p r (I t)) ->
  edge_integral (fun x y => rsum (map (fun t => F t x y) l)) p r (rsum (map I l)).
Proof.
  induction l as [|t l IH]; intros A.
  - cbn [map]. unfold edge_integral. exists (fun _ => 0). split; [intros x; rewrite rsum_nil, Rmult_0_l; apply derivable_pt_lim_const|rewrite rsum_nil; ring].
  - assert (B := A t (or_introl eq_refl)). assert (C := IH (fun u i => A u (or_intror i))). unfold edge_integral in *.
    assert (D := integral_plus _ _ 0 1 _ _ B C). cbn [map]. rewrite rsum_cons. eapply integral_ext; [|exact D]. intros u. cbn [map]. rewrite rsum_cons. ring.
Qed.
Lemma edge_integral_scal : forall F p r I k, edge_integral F p r I -> edge_integral (fun x y => k * F x y) p r (k * I).
Proof. intros F p r I k A. unfold edge_integral in *. eapply integral_ext; [|exact (integral_scal _ 0 1 I k A)]. intros u. cbn. ring. Qed.
(** Green's theorem for polynomials: with dF/dx = f the integral over the cell is
    the integral of F dy along its boundary *)
Theorem green : forall sw se ne nw n f, poly_total n f ->
  exists F I0 I1 I2 I3, poly_total (S n) F /\ (forall y, antiderivative (fun x => F x y) (fun x => f x y)) /\
  edge_integral F sw se I0 /\ edge_integral F se ne I1 /\ edge_integral F ne nw I2 /\ edge_integral F nw sw I3 /\
  integral2 (fun s t => f (map_x (sw, se, ne, nw) s t) (map_y (sw, se, ne, nw) s t) * quad_jac_det (sw, se, ne, nw) s t) 0 1 0 1 (I0 + I1 + I2 + I3).
Proof.
  intros sw se ne nw n f [c [Fc H]].
  assert (Ex : forall p r, exists J : R * nat * nat -> R, forall u, In u c -> edge_integral (fun x y => x ^ S (snd (fst u)) / INR (S (snd (fst u))) * y ^ snd u) p r (J u)).
  { intros p r. clear H Fc. induction c as [|u l [J HJ]]; [exists (fun _ => 0); intros u []|].
    destruct (edge_integral_ex (snd (fst u)) (snd u) p r) as [I HI].
    assert (Dec : forall a b : R * nat * nat, {snd (fst a) = snd (fst b) /\ snd a = snd b} + {~ (snd (fst a) = snd (fst b) /\ snd a = snd b)}).
    { intros a b. destruct (Nat.eq_dec (snd (fst a)) (snd (fst b))), (Nat.eq_dec (snd a) (snd b)); [left; tauto|right; tauto|right; tauto|right; tauto]. }
    exists (fun v => if Dec v u then I else J v). intros v Iv. destruct (Dec v u) as [[-> ->]|N]; [exact HI|].
    destruct Iv as [->|Iv]; [exfalso; tauto|]. apply HJ. exact Iv. }
  destruct (Ex sw se) as [J0 H0], (Ex se ne) as [J1 H1], (Ex ne nw) as [J2 H2], (Ex nw sw) as [J3 H3]. clear Ex.
  set (Fu := fun (u : R * nat * nat) x y => fst (fst u) * (x ^ S (snd (fst u)) / INR (S (snd (fst u))) * y ^ snd u)).
  exists (fun x y => rsum (map (fun u => Fu u x y) c)),
    (rsum (map (fun u => fst (fst u) * J0 u) c)), (rsum (map (fun u => fst (fst u) * J1 u) c)), (rsum (map (fun u => fst (fst u) * J2 u) c)), (rsum (map (fun u => fst (fst u) * J3 u) c)).
  split; [|split; [|split; [|split; [|split; [|split]]]]].
  - exists (map (fun u => (fst (fst u) / INR (S (snd (fst u))), S (snd (fst u)), snd u)) c). split.
    + apply Forall_map. eapply Forall_impl; [|exact Fc]. intros u Hu. cbn in *. lia.
    + intros x y. rewrite map_map. apply rsum_ext. intros u _. unfold Fu. cbn [fst snd]. field. apply not_0_INR. lia.
  - intros y. apply (antiderivative_ext _ (fun x => rsum (map (fun u => (fst (fst u) * y ^ snd u) * x ^ snd (fst u)) c))).
    { intros x. rewrite H. apply rsum_ext. intros; ring. }
    apply (antiderivative_sum _ (fun u x => Fu u x y)). intros u _.
    intros x. eapply D_ext; [| |exact (antiderivative_scal _ _ (fst (fst u) * y ^ snd u) (antiderivative_power (snd (fst u))) x)]; [|reflexivity].
    intros z. unfold Fu. field. apply not_0_INR. lia.
  - apply edge_integral_sum. intros u Iu. unfold Fu. apply edge_integral_scal. apply H0. exact Iu.
  - apply edge_integral_sum. intros u Iu. unfold Fu. apply edge_integral_scal. apply H1. exact Iu.
  - apply edge_integral_sum. intros u Iu. unfold Fu. apply edge_integral_scal. apply H2. exact Iu.
  - apply edge_integral_sum. intros u Iu. unfold Fu. apply edge_integral_scal. apply H3. exact Iu.
  - rewrite <- !rsum_plus.
    apply (integral2_ext (fun s t => rsum (map (fun u => fst (fst u) * (map_x (sw, se, ne, nw) s t ^ snd (fst u) * map_y (sw, se, ne, nw) s t ^ snd u * quad_jac_det (sw, se, ne, nw) s t)) c))).
    { intros s t. rewrite H, Rmult_comm, <- rsum_scal. apply rsum_ext. intros; ring. }
    assert (W : forall u, fst (fst u) * J0 u + fst (fst u) * J1 u + fst (fst u) * J2 u + fst (fst u) * J3 u = fst (fst u) * (J0 u + J1 u + J2 u + J3 u)) by (intros; ring).
    rewrite (rsum_ext _ _ _ c (fun u _ => W u)).
    apply (integral2_sum _ (fun u s t => fst (fst u) * (map_x (sw, se, ne, nw) s t ^ snd (fst u) * map_y (sw, se, ne, nw) s t ^ snd u * quad_jac_det (sw, se, ne, nw) s t))).
    intros u Iu. apply (integral2_scal (fun s t => map_x (sw, se, ne, nw) s t ^ snd (fst u) * map_y (sw, se, ne, nw) s t ^ snd u * quad_jac_det (sw, se, ne, nw) s t)).
    apply green_mono; [apply H0|apply H1|apply H2|apply H3]; exact Iu.
Qed.
