(** * Rules on cells and edges *)
From Coq Require Import List Reals Lra Lia Arith Psatz.
From Verif Require Import Tree Quadrature SpecQuadrature QuadratureFacts QuadratureRules.
Import ListNotations.
Open Scope R_scope.

Lemma tensor_product : forall l, tensor l = product l l.
Proof. reflexivity. Qed.
Lemma quadrature2_ext : forall l f g, (forall p, In p l -> f (fst (fst p)) (snd (fst p)) = g (fst (fst p)) (snd (fst p))) -> quadrature2 l f = quadrature2 l g.
Proof. intros l f g E. apply rsum_ext. intros p I. rewrite (E p I). reflexivity. Qed.

(** The six-point rule: total weight and centre of gravity are exact *)
Lemma moments6 : moments 2 (gauss_ref 6) (-1) 1.
Proof.
  intros k L. cbn [gauss_ref]. rewrite !quadrature1_cons, quadrature1_nil. cbn [fst snd].
  destruct k as [|[|k]]; [| |lia]; cbn [pow INR]; lra.
Qed.
Lemma unit_exact2 : forall n, (1 <= n <= 6)%nat -> exact 2 (unit_rule (gauss_ref n)) 0 1.
Proof.
  intros n L. destruct (Nat.eq_dec n 6) as [->|N].
  - apply (unit_exact 2 2); [apply moments6|lia].
  - intros f P. apply (unit_rules_exact n); [lia|]. apply (poly_mono 2); [lia|exact P].
Qed.

Lemma bilinear_poly : forall a b c d, poly2 2 2 (fun s t => bilinear a b c d s t).
Proof.
  intros a b c d. exists [(a, 0%nat, 0%nat); (b - a, 1%nat, 0%nat); (d - a, 0%nat, 1%nat); (a - b + c - d, 1%nat, 1%nat)].
  split; [repeat constructor; cbn; lia|]. intros s t. cbn [map]. rewrite !rsum_cons, rsum_nil. unfold bilinear. cbn [fst snd pow]. ring.
Qed.
Lemma det_poly : forall q, poly2 2 2 (fun s t => quad_jac_det q s t).
Proof.
  intros [[[sw se] ne] nw].
  exists [(cross nw sw se, 0%nat, 0%nat); (cross sw se ne - cross nw sw se, 1%nat, 0%nat); (cross ne nw sw - cross nw sw se, 0%nat, 1%nat)].
  split; [repeat constructor; cbn; lia|]. intros s t. cbn [map]. rewrite !rsum_cons, rsum_nil. unfold quad_jac_det, cross. cbn [fst snd pow]. ring.
Qed.
(** The determinant in terms of the corners *)
Lemma det_corners : forall sw se ne nw s t, quad_jac_det (sw, se, ne, nw) s t =
  (1 - s) * (1 - t) * cross nw sw se + s * (1 - t) * cross sw se ne + s * t * cross se ne nw + (1 - s) * t * cross ne nw sw.
Proof. intros. unfold quad_jac_det, cross. ring. Qed.
Lemma det_positive : forall q s t, strictly_convex q -> 0 < s < 1 -> 0 < t < 1 -> 0 < quad_jac_det q s t.
Proof.
  intros [[[sw se] ne] nw] s t [C1 [C2 [C3 C4]]] Hs Ht. rewrite det_corners.
  repeat apply Rplus_lt_0_compat; repeat apply Rmult_lt_0_compat; lra.
Qed.

Lemma inner_tensor : forall l, inner l -> Forall (fun p => 0 < fst (fst p) < 1 /\ 0 < snd (fst p) < 1 /\ 0 < snd p) (tensor l).
Proof.
  intros l In1. unfold inner in In1. rewrite Forall_forall in In1. apply Forall_forall. intros p I. apply in_concat in I. destruct I as [m [Im I]]. apply in_map_iff in Im. destruct Im as [u [<- Iu]].
  apply in_map_iff in I. destruct I as [v [<- Iv]]. cbn [fst snd]. destruct (In1 u Iu) as [A B], (In1 v Iv) as [A' B']. split; [exact A|]. split; [exact A'|]. apply Rmult_lt_0_compat; assumption.
Qed.

(** ** Intervals, rectangles, quadrilaterals, edges *)
Lemma map_interval_exact : forall n l x0 x1, exact n l 0 1 -> exact n (map_interval x0 x1 l) x0 x1.
Proof.
  intros n l x0 x1 E f P. assert (X := exact_affine n l 0 1 x0 (x1 - x0) E f P).
  replace (x0 + (x1 - x0) * 0) with x0 in X by ring. replace (x0 + (x1 - x0) * 1) with x1 in X by ring.
  assert (Q : quadrature1 (map_interval x0 x1 l) f = quadrature1 (map (fun p => (x0 + (x1 - x0) * fst p, (x1 - x0) * snd p)) l) f).
  { unfold quadrature1, map_interval. rewrite !map_map. apply rsum_ext. intros p _. cbn [fst snd]. ring. }
  rewrite Q. exact X.
Qed.
Lemma rectangle_rule : forall a b c d l f, quadrature2 (map_quad (rectangle a b c d) (tensor l)) f = quadrature2 (product (map_interval a b l) (map_interval c d l)) f.
Proof.
  intros a b c d l f. unfold quadrature2, map_quad, tensor, product. rewrite map_map, !rsum_concat. unfold map_interval. rewrite map_map.
  apply rsum_ext. intros p _. rewrite !map_map. apply rsum_ext. intros q _. cbn [fst snd rectangle quad_map quad_jac_det].
  unfold rectangle, quad_map, quad_jac_det, bilinear. cbn [fst snd].
  replace (a * (1 - fst p) * (1 - fst q) + b * fst p * (1 - fst q) + b * fst p * fst q + a * (1 - fst p) * fst q) with (a + (b - a) * fst p) by ring.
  replace (c * (1 - fst p) * (1 - fst q) + c * fst p * (1 - fst q) + d * fst p * fst q + d * (1 - fst p) * fst q) with (c + (d - c) * fst q) by ring.
  ring.
Qed.
Definition map_x (q : quadr) (s t : R) : R := fst (quad_map q s t).
Definition map_y (q : quadr) (s t : R) : R := snd (quad_map q s t).
Lemma map_xy_poly : forall q, poly2 2 2 (map_x q) /\ poly2 2 2 (map_y q).
Proof. intros [[[sw se] ne] nw]. split; apply (bilinear_poly _ _ _ _). Qed.
Lemma map_quad_pullback : forall q l f, quadrature2 (map_quad q l) f = quadrature2 l (fun s t => f (map_x q s t) (map_y q s t) * quad_jac_det q s t).
Proof. intros q l f. unfold quadrature2, map_quad. rewrite map_map. apply rsum_ext. intros p _. cbn [fst snd]. unfold map_x, map_y. ring. Qed.
Lemma quad_exact : forall n q l f, exact (S n) l 0 1 -> poly_total n f ->
  integral2 (fun s t => f (map_x q s t) (map_y q s t) * quad_jac_det q s t) 0 1 0 1 (quadrature2 (map_quad q (tensor l)) f).
Proof.
  intros n q l f E P. rewrite map_quad_pullback, tensor_product. apply (product_exact (S n) (S n)); try assumption.
  destruct n as [|n].
  - destruct P as [c [F H]]. destruct c as [|t c]; [|inversion F; subst; lia].
    exists []. split; [constructor|]. intros x y. rewrite H. cbn [map]. rewrite rsum_nil. ring.
  - apply (poly2_mono (S (n + 1)) (S (n + 1))); [lia|lia|].
    apply (poly2_mul n n 1 1 (fun s t => f (map_x q s t) (map_y q s t)) (fun s t => quad_jac_det q s t)); [|apply det_poly].
    apply poly_total_comp; [exact P|apply map_xy_poly|apply map_xy_poly].
Qed.
Lemma exact_power : forall n l k, exact n l 0 1 -> (k < n)%nat -> quadrature1 l (fun x => x ^ k) = 1 / INR (S k).
Proof.
  intros n l k E L. assert (N : INR (S k) <> 0) by (apply not_0_INR; lia).
  apply (integral_unique (fun x => x ^ k) (fun x => x ^ k) 0 1 _ _ (fun x => eq_refl)).
  - apply E. exists [(1, k)]. split; [repeat constructor; exact L|]. intros x. cbn [map]. rewrite rsum_cons, rsum_nil. cbn [fst snd]. ring.
  - exists (fun x => x ^ S k / INR (S k)). split; [apply antiderivative_power|]. rewrite pow1, pow_i by lia. field. exact N.
Qed.
Lemma exact_linear : forall l u v, exact 2 l 0 1 -> quadrature1 l (fun x => u + v * x) = u + v / 2.
Proof.
  intros l u v E. assert (M0 := exact_power 2 l 0 E ltac:(lia)). assert (M1 := exact_power 2 l 1 E ltac:(lia)).
  cbn [INR] in M0, M1.
  transitivity (u * quadrature1 l (fun x => x ^ 0) + v * quadrature1 l (fun x => x ^ 1)).
  - rewrite <- !quadrature1_scal. unfold quadrature1. rewrite <- rsum_plus. apply rsum_ext. intros p _. cbn [pow]. ring.
  - rewrite M0, M1. field.
Qed.
Lemma quad_area : forall q l, exact 2 l 0 1 -> rsum (map snd (map_quad q (tensor l))) = area q.
Proof.
  intros q l E.
  transitivity (quadrature2 (product l l) (fun s t => quad_jac_det q s t)).
  { unfold quadrature2, map_quad. rewrite map_map. reflexivity. }
  rewrite quadrature2_product. destruct q as [[[sw se] ne] nw].
  set (a := cross nw sw se). set (b := cross sw se ne). set (d := cross ne nw sw).
  transitivity (quadrature1 l (fun y => (a + (b - a) / 2) + (d - a) * y)).
  - apply quadrature1_ext. intros p _.
    transitivity (quadrature1 l (fun x => (a + (d - a) * fst p) + (b - a) * x)).
    + apply quadrature1_ext. intros p' _. unfold quad_jac_det, a, b, d, cross. ring.
    + rewrite (exact_linear l _ _ E). field.
  - rewrite (exact_linear l _ _ E). unfold area, a, b, d, cross. field.
Qed.
Lemma edge_exact : forall n b h l f, exact n l 0 1 -> poly_total n f ->
  integral (fun t => f (fst b + (fst h - fst b) * t) (snd b + (snd h - snd b) * t) * distance b h) 0 1 (quadrature2 (map_edge b h l) f).
Proof.
  intros n b h l f E [c [F H]].
  assert (Q : quadrature2 (map_edge b h l) f = quadrature1 l (fun t => f (fst b + (fst h - fst b) * t) (snd b + (snd h - snd b) * t) * distance b h)).
  { unfold quadrature2, quadrature1, map_edge. rewrite map_map. apply rsum_ext. intros p _. cbn [fst snd]. unfold distance. ring. }
  rewrite Q. apply E.
  apply (poly_ext n (fun t => distance b h * rsum (map (fun u => fst (fst u) * (fst b + (fst h - fst b) * t) ^ snd (fst u) * (snd b + (snd h - snd b) * t) ^ snd u) c))).
  { intros t. rewrite H. ring. }
  apply poly_scal. apply (poly_sum _ n (fun u t => fst (fst u) * (fst b + (fst h - fst b) * t) ^ snd (fst u) * (snd b + (snd h - snd b) * t) ^ snd u)).
  intros u I. rewrite Forall_forall in F. apply F in I.
  apply (poly_ext n (fun t => fst (fst u) * ((fst b + (fst h - fst b) * t) ^ snd (fst u) * (snd b + (snd h - snd b) * t) ^ snd u))); [intros; ring|]. apply poly_scal.
  apply (poly_mono (S (snd (fst u) + snd u))); [lia|].
  apply (poly_mul _ _ (fun t => (fst b + (fst h - fst b) * t) ^ snd (fst u)) (fun t => (snd b + (snd h - snd b) * t) ^ snd u)); apply poly_pow_affine.
Qed.
Lemma edge_weights : forall b h l, exact 1 l 0 1 -> rsum (map snd (map_edge b h l)) = distance b h.
Proof.
  intros b h l E. unfold map_edge. rewrite map_map. cbn [snd]. assert (M := exact_power 1 l 0 E ltac:(lia)). cbn [INR] in M.
  transitivity (distance b h * quadrature1 l (fun x => x ^ 0)).
  - unfold quadrature1. rewrite <- rsum_scal. apply rsum_ext. intros p _. unfold distance. cbn [pow]. ring.
  - rewrite M. field.
Qed.
Lemma edge_nodes_ok : forall q i l, (i < 4)%nat -> edge_nodes q i l = map fst (map_edge (fst (edge q i)) (snd (edge q i)) l).
Proof.
  intros [[[sw se] ne] nw] i l L. unfold edge_nodes, map_edge. rewrite map_map.
  destruct i as [|[|[|[|i]]]]; [| | | |lia]; cbn [ref_edge edge fst snd]; apply map_ext; intros p; unfold quad_map, bilinear; cbn [fst snd]; f_equal; ring.
Qed.

(** ** The integral over a quadrilateral is a boundary integral *)
Lemma D_ext : forall f g x l l', (forall y, f y = g y) -> l = l' -> derivable_pt_lim f x l -> derivable_pt_lim g x l'.
Proof. intros f g x l l' E <- D eps He. destruct (D eps He) as [d Hd]. exists d. intros h H1 H2. rewrite <- !E. apply Hd; assumption. Qed.
Lemma D_affine : forall c h x, derivable_pt_lim (fun x => c + h * x) x h.
Proof.
  intros c h x. apply (D_ext (fun x => c + h * x) (fun x => c + h * x) x (0 + h * 1) h (fun _ => eq_refl)); [ring|].
  apply (derivable_pt_lim_plus (fun _ => c) (fun x => h * x)); [apply derivable_pt_lim_const|].
  apply (derivable_pt_lim_scal id h x 1). apply derivable_pt_lim_id.
Qed.
Lemma D_mul : forall f g x l m, derivable_pt_lim f x l -> derivable_pt_lim g x m -> derivable_pt_lim (fun x => f x * g x) x (l * g x + f x * m).
Proof. intros. apply (derivable_pt_lim_mult f g); assumption. Qed.
Lemma D_pow : forall f x l k, derivable_pt_lim f x l -> derivable_pt_lim (fun x => f x ^ k) x (INR k * f x ^ pred k * l).
Proof.
  intros f x l k D. apply (derivable_pt_lim_comp f (fun y => y ^ k) x l (INR k * f x ^ pred k) D). apply derivable_pt_lim_pow.
Qed.
Section Green.
Context (q : quadr) (i j : nat).
Definition dys (q : quadr) (t : R) : R := let '(sw, se, ne, nw) := q in (snd se - snd sw) + (snd ne - snd nw - snd se + snd sw) * t.
Definition dyt (q : quadr) (s : R) : R := let '(sw, se, ne, nw) := q in (snd nw - snd sw) + (snd ne - snd nw - snd se + snd sw) * s.
Definition dxs (q : quadr) (t : R) : R := let '(sw, se, ne, nw) := q in (fst se - fst sw) + (fst ne - fst nw - fst se + fst sw) * t.
Definition dxt (q : quadr) (s : R) : R := let '(sw, se, ne, nw) := q in (fst nw - fst sw) + (fst ne - fst nw - fst se + fst sw) * s.
Definition dyst (q : quadr) : R := let '(sw, se, ne, nw) := q in snd ne - snd nw - snd se + snd sw.
Let X := map_x q. Let Y := map_y q.
Lemma det_d : forall s t, quad_jac_det q s t = dxs q t * dyt q s - dxt q s * dys q t.
Proof. intros s t. destruct q as [[[sw se] ne] nw]. unfold quad_jac_det, dxs, dyt, dxt, dys. ring. Qed.
Lemma D_Xs : forall s t, derivable_pt_lim (fun s => X s t) s (dxs q t).
Proof.
  intros s t. unfold X, map_x. destruct q as [[[sw se] ne] nw]. eapply D_ext; [| |apply (D_affine (fst sw + (fst nw - fst sw) * t) (dxs (sw, se, ne, nw) t))]; [|reflexivity].
  intros x. cbn [quad_map fst]. unfold dxs, bilinear. ring.
Qed.
Lemma D_Ys : forall s t, derivable_pt_lim (fun s => Y s t) s (dys q t).
Proof.
  intros s t. unfold Y, map_y. destruct q as [[[sw se] ne] nw]. eapply D_ext; [| |apply (D_affine (snd sw + (snd nw - snd sw) * t) (dys (sw, se, ne, nw) t))]; [|reflexivity].
  intros x. cbn [quad_map snd]. unfold dys, bilinear. ring.
Qed.
Lemma D_Xt : forall s t, derivable_pt_lim (fun t => X s t) t (dxt q s).
Proof.
  intros s t. unfold X, map_x. destruct q as [[[sw se] ne] nw]. eapply D_ext; [| |apply (D_affine (fst sw + (fst se - fst sw) * s) (dxt (sw, se, ne, nw) s))]; [|reflexivity].
  intros x. cbn [quad_map fst]. unfold dxt, bilinear. ring.
Qed.
Lemma D_Yt : forall s t, derivable_pt_lim (fun t => Y s t) t (dyt q s).
Proof.
  intros s t. unfold Y, map_y. destruct q as [[[sw se] ne] nw]. eapply D_ext; [| |apply (D_affine (snd sw + (snd se - snd sw) * s) (dyt (sw, se, ne, nw) s))]; [|reflexivity].
  intros x. cbn [quad_map snd]. unfold dyt, bilinear. ring.
Qed.
Lemma D_dyt : forall s, derivable_pt_lim (dyt q) s (dyst q).
Proof. intros s. destruct q as [[[sw se] ne] nw]. apply D_affine. Qed.
Lemma D_dys : forall t, derivable_pt_lim (dys q) t (dyst q).
Proof. intros t. destruct q as [[[sw se] ne] nw]. apply D_affine. Qed.
(** F(x, y) = x^(i+1)/(i+1) y^j *)
Definition U (s t : R) : R := X s t ^ S i / INR (S i) * Y s t ^ j * dyt q s.
Definition V (s t : R) : R := X s t ^ S i / INR (S i) * Y s t ^ j * dys q t.
Definition Us (s t : R) : R := X s t ^ i * Y s t ^ j * dxs q t * dyt q s + X s t ^ S i / INR (S i) * (INR j * Y s t ^ pred j * dys q t * dyt q s + Y s t ^ j * dyst q).
Definition Vt (s t : R) : R := X s t ^ i * Y s t ^ j * dxt q s * dys q t + X s t ^ S i / INR (S i) * (INR j * Y s t ^ pred j * dyt q s * dys q t + Y s t ^ j * dyst q).
Lemma D_U : forall s t, derivable_pt_lim (fun s => U s t) s (Us s t).
Proof.
  intros s t. assert (N : INR (S i) <> 0) by (apply not_0_INR; lia).
  eapply D_ext; [| |exact (D_mul _ _ s _ _ (D_mul _ _ s _ _ (D_mul (fun _ => / INR (S i)) _ s 0 _ (derivable_pt_lim_const _ s) (D_pow _ s _ (S i) (D_Xs s t))) (D_pow _ s _ j (D_Ys s t))) (D_dyt s))].
  - intros y. unfold U. field. exact N.
  - unfold Us. change (pred (S i)) with i. field. exact N.
Qed.
Lemma D_V : forall s t, derivable_pt_lim (fun t => V s t) t (Vt s t).
Proof.
  intros s t. assert (N : INR (S i) <> 0) by (apply not_0_INR; lia).
  eapply D_ext; [| |exact (D_mul _ _ t _ _ (D_mul _ _ t _ _ (D_mul (fun _ => / INR (S i)) _ t 0 _ (derivable_pt_lim_const _ t) (D_pow _ t _ (S i) (D_Xt s t))) (D_pow _ t _ j (D_Yt s t))) (D_dys t))].
  - intros y. unfold V. field. exact N.
  - unfold Vt. change (pred (S i)) with i. field. exact N.
Qed.
Lemma green_pointwise : forall s t, Us s t - Vt s t = X s t ^ i * Y s t ^ j * quad_jac_det q s t.
Proof. intros. unfold Us, Vt. rewrite det_d. ring. Qed.
End Green.
