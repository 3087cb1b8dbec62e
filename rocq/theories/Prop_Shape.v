(** * C31, C32, C35: shape functions (src/fem.py) *)
From Coq Require Import List Arith Bool Lia QArith Qabs Qminmax Lqa Qring Qfield.
From Verif Require Import Tree Geom SpecGeom Fem SpecFem ShapeFacts.
Import ListNotations.
Open Scope Q_scope.

(** ** C31 *)
(** a local dof number is valid iff it is below [n_dofs]; otherwise phi, dphi and
    d2phi raise AssertionError *)
Theorem C31_range e n :
  ((n < n_dofs D1 e)%nat -> forall x, exists v v' v'', phi1 e n x = Ok v /\ dphi1 e n x = Ok v' /\ d2phi1 e n x = Ok v'') /\
  ((n < n_dofs D2 e)%nat -> forall p, (exists v, phi2 e n p = Ok v) /\
     (forall i, (i < 2)%nat -> exists v, dphi2 e n p i = Ok v) /\
     (forall i j, (i < 2)%nat -> (j < 2)%nat -> exists v, d2phi2 e n p (i, j) = Ok v)) /\
  ((n_dofs D1 e <= n)%nat -> forall x,
     phi1 e n x = Err AssertionError /\ dphi1 e n x = Err AssertionError /\ d2phi1 e n x = Err AssertionError) /\
  ((n_dofs D2 e <= n)%nat -> forall p i ij,
     phi2 e n p = Err AssertionError /\ dphi2 e n p i = Err AssertionError /\ d2phi2 e n p ij = Err AssertionError).
Proof.
  split; [|split; [|split]].
  - intros H x. destruct (phi1_spec e n H) as [c [f [g [h [_ [F [G [HH _]]]]]]]]. rewrite F, G, HH. eauto 7.
  - intros H p. destruct (phi2_spec e n H) as [c [d [f1 [g1 [h1 [f2 [g2 [h2 [ij [_ [_ [_ T]]]]]]]]]]]].
    destruct T. split; [eauto|]. split.
    + intros [|[|i]] Hi; [eauto|eauto|lia].
    + intros [|[|i]] [|[|j]] Hi Hj; eauto; lia.
  - intros H x. unfold phi1, dphi1, d2phi1, guard. rewrite (proj2 (Nat.ltb_ge _ _) H). auto.
  - intros H p i ij. unfold phi2, dphi2, d2phi2, guard. rewrite (proj2 (Nat.ltb_ge _ _) H). auto.
Qed.
Print Assumptions C31_range.

(** the shape functions are the Lagrange basis of the reference nodes: there are
    n_dofs nodes, in the reference cell, and function [n] is 1 at node [n] and 0
    at the others *)
Theorem C31_lagrange_1d e :
  length (reference_nodes1 e) = n_dofs D1 e /\
  forall m x, nth_error (reference_nodes1 e) m = Some x -> 0 <= x <= 1 /\
    forall n, (n < n_dofs D1 e)%nat -> exists v, phi1 e n x = Ok v /\ v == (if (n =? m)%nat then 1 else 0).
Proof.
  split; [destruct e; reflexivity|].
  destruct e; (do 4 (destruct m as [|m];
    [intros x E; vm_compute in E; first [discriminate E | injection E as <-; split; [split; vm_compute; discriminate|];
     intros n Hn; vm_compute in Hn; do 4 (destruct n as [|n]; [first [lia | eexists; split; [reflexivity|vm_compute; reflexivity]]|]); lia]|]));
   intros x E; vm_compute in E; destruct m; discriminate E.
Qed.
Print Assumptions C31_lagrange_1d.
Theorem C31_lagrange_2d e :
  length (reference_nodes2 e) = n_dofs D2 e /\
  forall m p, nth_error (reference_nodes2 e) m = Some p -> in_unit p /\
    forall n, (n < n_dofs D2 e)%nat -> exists v, phi2 e n p = Ok v /\ v == (if (n =? m)%nat then 1 else 0).
Proof.
  split; [destruct e; reflexivity|].
  destruct e; (do 16 (destruct m as [|m];
    [intros p E; vm_compute in E; first [discriminate E | injection E as <-; split; [unfold in_unit; cbn [fst snd]; repeat split; vm_compute; discriminate|];
     intros n Hn; vm_compute in Hn; do 16 (destruct n as [|n]; [first [lia | eexists; split; [reflexivity|vm_compute; reflexivity]]|]); lia]|]));
   intros p E; vm_compute in E; destruct m; discriminate E.
Qed.
Print Assumptions C31_lagrange_2d.
(** they sum to 1 and their derivatives to 0, at every point *)
Theorem C31_partition_of_unity e :
  (forall x, sums_to (n_dofs D1 e) (fun n => phi1 e n x) 1 /\ sums_to (n_dofs D1 e) (fun n => dphi1 e n x) 0 /\
             sums_to (n_dofs D1 e) (fun n => d2phi1 e n x) 0) /\
  (forall p, sums_to (n_dofs D2 e) (fun n => phi2 e n p) 1 /\
     (forall i, (i < 2)%nat -> sums_to (n_dofs D2 e) (fun n => dphi2 e n p i) 0) /\
     (forall i j, (i < 2)%nat -> (j < 2)%nat -> sums_to (n_dofs D2 e) (fun n => d2phi2 e n p (i, j)) 0)).
Proof.
  assert (R : forall x, sumQ (map (fun i => cub (cf e i) x) (seq 0 (n_dofs D1 e))) == 1).
  { intro x. rewrite <- (sumQ_map_ext (fun i => poly [1] (ndi e i) * cub (cf e i) x)).
    - rewrite rep1 by (cbn; lia). cbn. ring.
    - intros i _. cbn. ring. }
  pose proof (fun x => proj1 (rep1_x e x)) as RX. pose proof (fun x => proj2 (rep1_x e x)) as RXX.
  split.
  - intro x.
    assert (S1 : forall n y, nth_error (seq 0 (n_dofs D1 e)) n = Some y -> y = n /\ (n < n_dofs D1 e)%nat) by (intros; apply seq_nth1; auto).
    assert (W : forall n y, nth_error (seq 0 (n_dofs D1 e)) n = Some y ->
      (exists v, phi1 e n x = Ok v /\ v == cub (cf e y) x) /\ (exists v, dphi1 e n x = Ok v /\ v == cub_x (cf e y) x) /\
      (exists v, d2phi1 e n x = Ok v /\ v == cub_xx (cf e y) x)).
    { intros n y H. destruct (S1 n y H) as [-> L]. destruct (phi1_spec e n L) as [c [f [g [h [Hc [F [G [HH E]]]]]]]].
      assert (cf e n = c) as -> by (unfold cf; apply nth_error_nth; auto).
      rewrite F, G, HH. destruct (E x) as [E1 [E2 E3]]. split; [|split]; eexists; split; eauto. }
    rewrite <- (seq_length (n_dofs D1 e) 0) at 1 2 3.
    split; [|split].
    + apply (@sums_of nat (seq 0 (n_dofs D1 e)) _ (fun i => cub (cf e i) x)); [intros n y H; apply W; auto|apply R].
    + apply (@sums_of nat (seq 0 (n_dofs D1 e)) _ (fun i => cub_x (cf e i) x)); [intros n y H; apply W; auto|apply RX].
    + apply (@sums_of nat (seq 0 (n_dofs D1 e)) _ (fun i => cub_xx (cf e i) x)); [intros n y H; apply W; auto|apply RXX].
  - intro p.
    assert (W : forall (a b : Q * Q * Q * Q -> Q -> Q) F s,
      sumQ (map (fun i => a (cf e i) (fst p)) (seq 0 (n_dofs D1 e))) * sumQ (map (fun i => b (cf e i) (snd p)) (seq 0 (n_dofs D1 e))) == s ->
      (forall n c d f1 g1 h1 f2 g2 h2, two e n c d f1 g1 h1 f2 g2 h2 -> exists v, F n = Ok v /\ v == a c (fst p) * b d (snd p)) ->
      sums_to (n_dofs D2 e) F s).
    { intros a b F s HS HF. rewrite <- basis2_len.
      apply (@sums_of (nat * nat) (basis_index2 e) _ (fun ij => a (cf e (fst ij)) (fst p) * b (cf e (snd ij)) (snd p))).
      - intros n ij Hn.
        assert (L : (n < n_dofs D2 e)%nat) by (rewrite <- basis2_len; apply nth_error_Some; rewrite Hn; discriminate).
        destruct (phi2_spec e n L) as [c [d [f1 [g1 [h1 [f2 [g2 [h2 [ij' [B [Hc [Hd T]]]]]]]]]]]].
        rewrite Hn in B. injection B as <-.
        assert (cf e (fst ij) = c) as -> by (unfold cf; apply nth_error_nth; auto).
        assert (cf e (snd ij) = d) as -> by (unfold cf; apply nth_error_nth; auto). eapply HF, T.
      - rewrite (tensor_mul e (fun i => a (cf e i) (fst p)) (fun i => b (cf e i) (snd p))). exact HS. }
    assert (M : forall a b a' b' : Q, a == a' -> b == b' -> a * b == a' * b') by (intros a b a' b' -> ->; reflexivity).
    split; [|split].
    + apply (W cub cub); [rewrite !R; ring|]. intros n c d f1 g1 h1 f2 g2 h2 [V _ _ _ _ _ _ A B]. rewrite V.
      eexists. split; [reflexivity|]. apply M; [apply A|apply B].
    + intros [|[|i]] Hi; [| |lia].
      * apply (W cub_x cub); [rewrite RX; ring|]. intros n c d f1 g1 h1 f2 g2 h2 [_ V _ _ _ _ _ A B]. rewrite V.
        eexists. split; [reflexivity|]. apply M; [apply A|apply B].
      * apply (W cub cub_x); [rewrite RX; ring|]. intros n c d f1 g1 h1 f2 g2 h2 [_ _ V _ _ _ _ A B]. rewrite V.
        eexists. split; [reflexivity|]. apply M; [apply A|apply B].
    + intros [|[|i]] [|[|j]] Hi Hj; try lia.
      * apply (W cub_xx cub); [rewrite RXX; ring|]. intros n c d f1 g1 h1 f2 g2 h2 [_ _ _ V _ _ _ A B]. rewrite V.
        eexists. split; [reflexivity|]. apply M; [apply A|apply B].
      * apply (W cub_x cub_x); [rewrite RX; ring|]. intros n c d f1 g1 h1 f2 g2 h2 [_ _ _ _ V _ _ A B]. rewrite V.
        eexists. split; [reflexivity|]. apply M; [apply A|apply B].
      * apply (W cub_x cub_x); [rewrite RX; ring|]. intros n c d f1 g1 h1 f2 g2 h2 [_ _ _ _ _ V _ A B]. rewrite V.
        eexists. split; [reflexivity|]. apply M; [apply A|apply B].
      * apply (W cub cub_xx); [rewrite RXX; ring|]. intros n c d f1 g1 h1 f2 g2 h2 [_ _ _ _ _ _ V A B]. rewrite V.
        eexists. split; [reflexivity|]. apply M; [apply A|apply B].
Qed.
Print Assumptions C31_partition_of_unity.
(** interpolating a polynomial of degree at most [degree e] (in each variable) at
    the reference nodes gives back the polynomial *)
Theorem C31_reproduces_1d e c x : (length c <= S (degree e))%nat ->
  sums_to (n_dofs D1 e) (fun n => bind (at_ (reference_nodes1 e) n) (fun y => bind (phi1 e n x) (fun v => Ok (poly c y * v)))) (poly c x).
Proof.
  intro H. rewrite <- (seq_length (n_dofs D1 e) 0).
  apply (@sums_of nat (seq 0 (n_dofs D1 e)) _ (fun i => poly c (ndi e i) * cub (cf e i) x)).
  - intros n y Hn. destruct (seq_nth1 _ _ _ Hn) as [-> L]. destruct (nodes1_nth e n L) as [z [Hz Ez]].
    destruct (phi1_spec e n L) as [k [f [g [h [Hc [F [G [HH E]]]]]]]].
    assert (cf e n = k) as -> by (unfold cf; apply nth_error_nth; auto).
    rewrite Hz. cbn [bind]. rewrite F. cbn [bind]. eexists. split; [reflexivity|].
    rewrite (poly_proper c _ _ Ez). destruct (E x) as [-> _]. reflexivity.
  - apply rep1; auto.
Qed.
Print Assumptions C31_reproduces_1d.
Theorem C31_reproduces_2d e c p : (length c <= S (degree e))%nat -> Forall (fun r => (length r <= S (degree e))%nat) c ->
  sums_to (n_dofs D2 e) (fun n => bind (at_ (reference_nodes2 e) n) (fun y => bind (phi2 e n p) (fun v => Ok (poly2 c y * v)))) (poly2 c p).
Proof.
  intros H HF. rewrite <- basis2_len.
  apply (@sums_of (nat * nat) (basis_index2 e) _ (fun ij => poly2 c (ndi e (fst ij), ndi e (snd ij)) * (cub (cf e (fst ij)) (fst p) * cub (cf e (snd ij)) (snd p)))).
  - intros n ij Hn.
    assert (L : (n < n_dofs D2 e)%nat) by (rewrite <- basis2_len; apply nth_error_Some; rewrite Hn; discriminate).
    destruct (phi2_spec e n L) as [k [d [f1 [g1 [h1 [f2 [g2 [h2 [ij' [B [Hc [Hd T]]]]]]]]]]]].
    rewrite Hn in B. injection B as <-.
    assert (cf e (fst ij) = k) as -> by (unfold cf; apply nth_error_nth; auto).
    assert (cf e (snd ij) = d) as -> by (unfold cf; apply nth_error_nth; auto).
    destruct (nodes2_nth e n ij Hn) as [z [Hz Ez]]. destruct T as [V _ _ _ _ _ _ A B].
    rewrite Hz. cbn [bind]. rewrite V. cbn [bind].
    eexists. split; [reflexivity|]. rewrite (poly2_proper c _ _ Ez).
    destruct (A (fst p)) as [-> _]. destruct (B (snd p)) as [-> _]. reflexivity.
  - apply rep2; auto.
Qed.
Print Assumptions C31_reproduces_2d.
(** dphi and d2phi are the derivatives of phi and dphi *)
Theorem C31_derivatives_1d e n : (n < n_dofs D1 e)%nat ->
  exists f g, (forall x, phi1 e n x = Ok (f x)) /\ (forall x, dphi1 e n x = Ok (g x)) /\
    forall x, deriv_at f x (g x) /\ exists h, d2phi1 e n x = Ok h /\ deriv_at g x h.
Proof.
  intro H. destruct (phi1_spec e n H) as [c [f [g [h [_ [F [G [HH E]]]]]]]]. exists f, g. do 2 (split; [auto|]).
  intro x. split; [|exists (h x); split; [auto|]].
  - apply (@deriv_cub f c 1 x); [intro y; destruct (E y) as [-> _]; ring|]. destruct (E x) as [_ [-> _]]. ring.
  - apply (@deriv_cub_x g c 1 x); [intro y; destruct (E y) as [_ [-> _]]; ring|]. destruct (E x) as [_ [_ ->]]. ring.
Qed.
Print Assumptions C31_derivatives_1d.
Theorem C31_derivatives_2d e n : (n < n_dofs D2 e)%nat ->
  exists f g0 g1, (forall p, phi2 e n p = Ok (f p)) /\ (forall p, dphi2 e n p 0 = Ok (g0 p)) /\ (forall p, dphi2 e n p 1 = Ok (g1 p)) /\
    forall p, partial_at f p (g0 p) (g1 p) /\
      (exists h00 h01, d2phi2 e n p (0, 0)%nat = Ok h00 /\ d2phi2 e n p (0, 1)%nat = Ok h01 /\ partial_at g0 p h00 h01) /\
      (exists h10 h11, d2phi2 e n p (1, 0)%nat = Ok h10 /\ d2phi2 e n p (1, 1)%nat = Ok h11 /\ partial_at g1 p h10 h11).
Proof.
  intro H. destruct (phi2_spec e n H) as [c [d [f1 [g1 [h1 [f2 [g2 [h2 [ij [_ [_ [_ T]]]]]]]]]]]].
  destruct T as [V V0 V1 V00 V01 V10 V11 C D].
  exists (fun p => f1 (fst p) * f2 (snd p)), (fun p => g1 (fst p) * f2 (snd p)), (fun p => f1 (fst p) * g2 (snd p)).
  do 3 (split; [auto|]). intros [x y]. cbn [fst snd].
  assert (C1 : forall z, f1 z == cub c z) by (intro; apply C). assert (C2 : forall z, g1 z == cub_x c z) by (intro; apply C).
  assert (C3 : forall z, h1 z == cub_xx c z) by (intro; apply C). assert (D1 : forall z, f2 z == cub d z) by (intro; apply D).
  assert (D2 : forall z, g2 z == cub_x d z) by (intro; apply D). assert (D3 : forall z, h2 z == cub_xx d z) by (intro; apply D).
  split; [|split].
  - split; cbn [fst snd].
    + apply (@deriv_cub _ c (cub d y)); [intro z; rewrite C1, D1; ring|rewrite C2, D1; ring].
    + apply (@deriv_cub _ d (cub c x)); [intro z; rewrite C1, D1; ring|rewrite C1, D2; ring].
  - exists (h1 x * f2 y), (g1 x * g2 y). split; [apply (V00 (x, y))|]. split; [apply (V01 (x, y))|]. split; cbn [fst snd].
    + apply (@deriv_cub_x _ c (cub d y)); [intro z; rewrite C2, D1; ring|rewrite C3, D1; ring].
    + apply (@deriv_cub _ d (cub_x c x)); [intro z; rewrite C2, D1; ring|rewrite C2, D2; ring].
  - exists (g1 x * g2 y), (f1 x * h2 y). split; [apply (V10 (x, y))|]. split; [apply (V11 (x, y))|]. split; cbn [fst snd].
    + apply (@deriv_cub _ c (cub_x d y)); [intro z; rewrite C1, D2; ring|rewrite C2, D2; ring].
    + apply (@deriv_cub_x _ d (cub c x)); [intro z; rewrite C1, D2; ring|rewrite C1, D3; ring].
Qed.
Print Assumptions C31_derivatives_2d.
(** the derivative of a function is unique, so the previous theorems determine
    dphi and d2phi *)
Theorem C31_derivative_unique f x d d' : deriv_at f x d -> deriv_at f x d' -> d == d'.
Proof.
  intros H1 H2. destruct (Qeq_dec d d') as [E|N]; auto. exfalso.
  assert (P : 0 < Qabs (d - d') / 4).
  { apply Qlt_shift_div_l; [lra|]. pose proof (Qabs_nonneg (d - d')) as G.
    destruct (Qlt_le_dec 0 (Qabs (d - d'))) as [L|L]; [lra|]. exfalso. apply N.
    assert (Z : Qabs (d - d') == 0) by lra. pose proof (Qle_Qabs (d - d')). pose proof (Qle_Qabs (- (d - d'))) as G'. rewrite Qabs_opp in G'. lra. }
  destruct (H1 _ P) as [a [Pa A]]. destruct (H2 _ P) as [b [Pb B]].
  set (h := Qmin a b). assert (Hh : 0 < h) by (apply Q.min_glb_lt; auto).
  assert (Ah : Qabs h == h) by (apply Qabs_pos; lra).
  assert (A1 : Qabs h <= a) by (rewrite Ah; apply Q.le_min_l). assert (B1 : Qabs h <= b) by (rewrite Ah; apply Q.le_min_r).
  pose proof (A h A1) as X. pose proof (B h B1) as Y.
  assert (Z : Qabs ((d - d') * h) <= Qabs (f (x + h) - f x - d' * h) + Qabs (f (x + h) - f x - d * h)).
  { setoid_replace ((d - d') * h) with ((f (x + h) - f x - d' * h) - (f (x + h) - f x - d * h)) by ring.
    unfold Qminus at 1. eapply Qle_trans; [apply Qabs_triangle|]. rewrite Qabs_opp. apply Qle_refl. }
  rewrite Qabs_Qmult in Z. setoid_replace (Qabs (d - d')) with (4 * (Qabs (d - d') / 4)) in Z by (field; lra).
  set (w := Qabs (d - d') / 4) in *. rewrite Ah in X, Y, Z. nra.
Qed.
Print Assumptions C31_derivative_unique.
Example C31_case : map (fun n => phi2 Q2 n (1 # 4, 1 # 2)) [4%nat; 7%nat; 8%nat; 9%nat] <> [] /\
  n_dofs D2 Q3 = 16%nat /\ (exists v, phi2 Q2 8 (1 # 4, 1 # 2) = Ok v /\ v == 3 # 4) /\ phi2 Q2 9 (1 # 4, 1 # 2) = Err AssertionError.
Proof. split; [discriminate|]. split; [reflexivity|]. split; [eexists; split; [reflexivity|vm_compute; reflexivity]|reflexivity]. Qed.

(** a continuous element is determined on a side of the reference square by the
    nodes on that side: the other shape functions vanish there *)
Theorem C31_trace e n : torn e = false -> (n < n_dofs D2 e)%nat -> exists p, nth_error (reference_nodes2 e) n = Some p /\
  forall s, (~ snd p == 0 -> exists v, phi2 e n (s, 0) = Ok v /\ v == 0) /\
            (~ fst p == 1 -> exists v, phi2 e n (1, s) = Ok v /\ v == 0) /\
            (~ snd p == 1 -> exists v, phi2 e n (s, 1) = Ok v /\ v == 0) /\
            (~ fst p == 0 -> exists v, phi2 e n (0, s) = Ok v /\ v == 0).
Proof.
  intros T H. destruct (phi2_spec e n H) as [k [d [f1 [g1 [h1 [f2 [g2 [h2 [ij [B [Hc [Hd [V _ _ _ _ _ _ C D]]]]]]]]]]]]].
  destruct (nodes2_nth e n ij B) as [p [Hp [P1 P2]]]. unfold at_ in Hp. destruct (nth_error (reference_nodes2 e) n) eqn:E; [|discriminate].
  injection Hp as ->. exists p. split; [auto|]. intro s. rewrite P1, P2. cbn [fst snd].
  destruct (basis2_spec _ _ _ B) as [L1 L2].
  assert (Z : forall i c z, nth_error (coefs e) i = Some c -> (i < n_dofs D1 e)%nat -> (z = 0 \/ z = 1) -> ~ ndi e i == z -> cub c z == 0).
  { clear - T. intros i c z Hc L Hz Hn. destruct e; try discriminate T; cbn in L;
     do 4 (destruct i as [|i]; [first [lia | cbn in Hc; injection Hc as <-; destruct Hz as [-> | ->]; 
       first [vm_compute; reflexivity | exfalso; apply Hn; reflexivity]]|]); lia. }
  assert (A : forall x y, phi2 e n (x, y) = Ok (f1 x * f2 y)) by (intros; apply (V (x, y))).
  destruct (C 0) as [C0 _]. destruct (C 1) as [C1 _]. destruct (D 0) as [D0 _]. destruct (D 1) as [D1 _].
  repeat split; intro N; (eexists; split; [apply A|]).
  - rewrite D0, (Z (snd ij) d 0); auto; ring.
  - rewrite C1, (Z (fst ij) k 1); auto; ring.
  - rewrite D1, (Z (snd ij) d 1); auto; ring.
  - rewrite C0, (Z (fst ij) k 0); auto; ring.
Qed.
Print Assumptions C31_trace.

(** ** C32 *)
(** On a side with [m + 1] coarse nodes at the parameters [k/m] that is cut in
    two, the fine nodes are at [i/(2m)]: the nodes [0..m] of the first half and
    [m..2m] of the second.  The constrained nodes of a half are those that are
    not coarse nodes. *)
Theorem C32_constrained_nodes e : e <> DQ0 ->
  exists a b, constraint_coefficients e = Ok (a, b) /\ NoDup (map fst a) /\ NoDup (map fst b) /\
  let m := degree e in
  (forall i, In i (map fst a) <-> (i <= m)%nat /\ forall k, (k <= m)%nat -> ~ Qn i / (2 * Qn m) == Qn k / Qn m) /\
  (forall i, In i (map fst b) <-> (i <= m)%nat /\ forall k, (k <= m)%nat -> ~ Qn (i + m) / (2 * Qn m) == Qn k / Qn m).
Proof.
  intro N. destruct e; [congruence| | | | | |]; clear N; (eexists; eexists; split; [vm_compute; reflexivity|];
   split; [cbn; repeat constructor; cbn; intuition discriminate|]; split; [cbn; repeat constructor; cbn; intuition discriminate|];
   cbn zeta; cbn [map fst degree]; split; intro i; split;
   [ intros H; cbn in H; repeat (destruct H as [<-|H]; [split; [lia|]; intros k Hk; do 4 (destruct k as [|k]; [vm_compute; discriminate|]); lia|]); contradiction
   | intros [L H]; do 4 (destruct i as [|i]; [cbn [In]; try tauto; exfalso; first [apply (H 0%nat); [lia|vm_compute; reflexivity] | apply (H 1%nat); [lia|vm_compute; reflexivity] | apply (H 2%nat); [lia|vm_compute; reflexivity] | apply (H 3%nat); [lia|vm_compute; reflexivity]| lia]|]); exfalso; lia
   | intros H; cbn in H; repeat (destruct H as [<-|H]; [split; [lia|]; intros k Hk; do 4 (destruct k as [|k]; [vm_compute; discriminate|]); lia|]); contradiction
   | intros [L H]; do 4 (destruct i as [|i]; [cbn [In]; try tauto; exfalso; first [apply (H 0%nat); [lia|vm_compute; reflexivity] | apply (H 1%nat); [lia|vm_compute; reflexivity] | apply (H 2%nat); [lia|vm_compute; reflexivity] | apply (H 3%nat); [lia|vm_compute; reflexivity]| lia]|]); exfalso; lia]).
Qed.
Print Assumptions C32_constrained_nodes.
(** The coefficients of a constrained node express the value there of every
    polynomial of degree at most [degree e] by its values at the coarse nodes, so
    the fine side agrees with the coarse one; in particular they sum to 1. *)
Theorem C32_coefficients e a b : constraint_coefficients e = Ok (a, b) ->
  let m := degree e in
  forall q, (length q <= S (degree e))%nat ->
  (forall i c, In (i, c) a -> length c = S m /\
     sumQ (map (fun k => nth k c 0 * poly q (Qn k / Qn m)) (seq 0 (S m))) == poly q (Qn i / (2 * Qn m))) /\
  (forall i c, In (i, c) b -> length c = S m /\
     sumQ (map (fun k => nth k c 0 * poly q (Qn k / Qn m)) (seq 0 (S m))) == poly q (Qn (i + m) / (2 * Qn m))).
Proof.
  intros E m q Hq. destruct e; try discriminate E; vm_compute in E; injection E as <- <-; subst m; cbn [degree] in *;
   (do 5 (destruct q as [|? q]; [split; intros i c H; cbn [In] in H;
      repeat (destruct H as [H|H]; [injection H as <- <-; split; [reflexivity|]; cbn [seq map sumQ poly nth Qn Qdiv Nat.add];
        unfold Qn; cbn [Z.of_nat Pos.of_succ_nat Pos.succ inject_Z]; field |]); contradiction|cbn [length] in Hq; try lia])).
Qed.
Print Assumptions C32_coefficients.
Corollary C32_sum_one e a b : constraint_coefficients e = Ok (a, b) ->
  forall i c, In (i, c) a \/ In (i, c) b -> sumQ c == 1.
Proof.
  intros E i c H. destruct e; try discriminate E; vm_compute in E; injection E as <- <-; cbn [In] in H;
   repeat (destruct H as [H|H]; [repeat (destruct H as [H|H]; [injection H as <- <-; vm_compute; reflexivity|]); contradiction|]);
   repeat (destruct H as [H|H]; [injection H as <- <-; vm_compute; reflexivity|]); contradiction.
Qed.
Print Assumptions C32_sum_one.
(** the function of DQ0 raises *)
Theorem C32_dq0_refuted : constraint_coefficients DQ0 = Err AttributeError.
Proof. reflexivity. Qed.
Example C32_case : exists a b, constraint_coefficients Q3 = Ok (a, b) /\ map fst a = [1; 3]%nat /\ map fst b = [0; 2]%nat.
Proof. eexists. eexists. split; [vm_compute; reflexivity|]. split; reflexivity. Qed.
