(** * Facts about the shape functions and a little differential calculus over Q *)
From Coq Require Import List Arith Bool Lia QArith Qabs Qminmax Lqa Qring Qfield.
From Verif Require Import Tree Geom SpecGeom Fem SpecFem.
Import ListNotations.
Open Scope Q_scope.

(** ** cubic polynomials *)
Definition cub (c : Q * Q * Q * Q) (x : Q) : Q :=
  let '(a, b, c2, d) := c in a + b * x + c2 * x * x + d * x * x * x.
Definition cub_x (c : Q * Q * Q * Q) (x : Q) : Q :=
  let '(a, b, c2, d) := c in b + 2 * c2 * x + 3 * d * x * x.
Definition cub_xx (c : Q * Q * Q * Q) (x : Q) : Q :=
  let '(a, b, c2, d) := c in 2 * c2 + 6 * d * x.
(** the second-order remainder *)
Definition cub_rem (c : Q * Q * Q * Q) (x h : Q) : Q :=
  let '(a, b, c2, d) := c in c2 + 3 * d * x + d * h.
Definition cub_rem_x (c : Q * Q * Q * Q) (x h : Q) : Q := let '(a, b, c2, d) := c in 3 * d.

Lemma cub_expand c x h : cub c (x + h) - cub c x - cub_x c x * h == h * h * cub_rem c x h.
Proof. destruct c as [[[a b] c] d]. unfold cub, cub_x, cub_rem. ring. Qed.
Lemma cub_x_expand c x h : cub_x c (x + h) - cub_x c x - cub_xx c x * h == h * h * cub_rem_x c x h.
Proof. destruct c as [[[a b] c] d]. unfold cub_x, cub_xx, cub_rem_x. ring. Qed.

Definition coefs (e : elem) : list (Q * Q * Q * Q) :=
  match e with
  | DQ0 => [(1, 0, 0, 0)]
  | Q1 | DQ1 => [(1, - (1), 0, 0); (0, 1, 0, 0)]
  | Q2 | DQ2 => [(1, - (3), 2, 0); (0, - (1), 2, 0); (0, 4, - (4), 0)]
  | Q3 | DQ3 => [(1, - (11 # 2), 9, - (9 # 2)); (0, 1, - (9 # 2), 9 # 2);
                 (0, 9, - (45 # 2), 27 # 2); (0, - (9 # 2), 18, - (27 # 2))]
  end.
Lemma pol_spec e i c : nth_error (coefs e) i = Some c ->
  exists f g h, nth_error (pol e) i = Some f /\ nth_error (pol_x e) i = Some g /\ nth_error (pol_xx e) i = Some h /\
    forall x, f x == cub c x /\ g x == cub_x c x /\ h x == cub_xx c x.
Proof.
  destruct e; (do 5 (destruct i as [|i]; [cbn [nth_error coefs pol pol_x pol_xx]; intro E; try discriminate E; injection E as <-;
     do 3 eexists; repeat (split; [reflexivity|]); intro x; unfold cub, cub_x, cub_xx, third, two3; repeat split; ring|])); 
   cbn; intro E; destruct i; discriminate E.
Qed.
Lemma coefs_len e : length (coefs e) = n_dofs D1 e.
Proof. destruct e; reflexivity. Qed.
Lemma basis1_spec e i : (i < n_dofs D1 e)%nat -> nth_error (basis_index1 e) i = Some i.
Proof. intro H. destruct e; cbn in H; do 4 (destruct i as [|i]; [reflexivity || lia|]); lia. Qed.
Lemma basis2_len e : length (basis_index2 e) = n_dofs D2 e.
Proof. destruct e; reflexivity. Qed.
Lemma basis2_spec e n ij : nth_error (basis_index2 e) n = Some ij -> (fst ij < n_dofs D1 e /\ snd ij < n_dofs D1 e)%nat.
Proof.
  intro H. apply nth_error_In in H. destruct e; cbn in *;
   repeat match goal with H : _ \/ _ |- _ => destruct H as [H|H]; [subst; cbn; lia|] end; contradiction.
Qed.
Lemma coef_ex e i : (i < n_dofs D1 e)%nat -> exists c, nth_error (coefs e) i = Some c.
Proof.
  intro H. destruct (nth_error (coefs e) i) eqn:E; eauto.
  apply nth_error_None in E. rewrite coefs_len in E. lia.
Qed.

(** the one-dimensional shape functions *)
Lemma phi1_spec e n : (n < n_dofs D1 e)%nat -> exists c f g h, nth_error (coefs e) n = Some c /\
  (forall x, phi1 e n x = Ok (f x)) /\ (forall x, dphi1 e n x = Ok (g x)) /\ (forall x, d2phi1 e n x = Ok (h x)) /\
  forall x, f x == cub c x /\ g x == cub_x c x /\ h x == cub_xx c x.
Proof.
  intro H. destruct (coef_ex e n H) as [c Hc]. destruct (pol_spec e n c Hc) as [f [g [h [F [G [HH E]]]]]].
  exists c, f, g, h. split; [auto|]. unfold phi1, dphi1, d2phi1, guard, at_.
  rewrite (proj2 (Nat.ltb_lt _ _) H), (basis1_spec e n H). cbn [bind]. rewrite F, G, HH. cbn [bind]. auto.
Qed.
(** the two-dimensional ones *)
Record two (e : elem) (n : nat) (c d : Q * Q * Q * Q) (f1 g1 h1 f2 g2 h2 : Q -> Q) : Prop := {
  tw_v : forall p, phi2 e n p = Ok (f1 (fst p) * f2 (snd p));
  tw_0 : forall p, dphi2 e n p 0 = Ok (g1 (fst p) * f2 (snd p));
  tw_1 : forall p, dphi2 e n p 1 = Ok (f1 (fst p) * g2 (snd p));
  tw_00 : forall p, d2phi2 e n p (0%nat, 0%nat) = Ok (h1 (fst p) * f2 (snd p));
  tw_01 : forall p, d2phi2 e n p (0%nat, 1%nat) = Ok (g1 (fst p) * g2 (snd p));
  tw_10 : forall p, d2phi2 e n p (1%nat, 0%nat) = Ok (g1 (fst p) * g2 (snd p));
  tw_11 : forall p, d2phi2 e n p (1%nat, 1%nat) = Ok (f1 (fst p) * h2 (snd p));
  tw_c : forall x, f1 x == cub c x /\ g1 x == cub_x c x /\ h1 x == cub_xx c x;
  tw_d : forall x, f2 x == cub d x /\ g2 x == cub_x d x /\ h2 x == cub_xx d x }.
Lemma phi2_spec e n : (n < n_dofs D2 e)%nat -> exists c d f1 g1 h1 f2 g2 h2 ij, nth_error (basis_index2 e) n = Some ij /\
  nth_error (coefs e) (fst ij) = Some c /\ nth_error (coefs e) (snd ij) = Some d /\ two e n c d f1 g1 h1 f2 g2 h2.
Proof.
  intro H. destruct (nth_error (basis_index2 e) n) as [[i j]|] eqn:B.
  2:{ apply nth_error_None in B. rewrite basis2_len in B. lia. }
  destruct (basis2_spec _ _ _ B) as [Hi Hj]. cbn [fst snd] in *.
  destruct (coef_ex e i Hi) as [c Hc]. destruct (coef_ex e j Hj) as [d Hd].
  destruct (pol_spec e i c Hc) as [f1 [g1 [h1 [F1 [G1 [H1 E1]]]]]].
  destruct (pol_spec e j d Hd) as [f2 [g2 [h2 [F2 [G2 [H2 E2]]]]]].
  exists c, d, f1, g1, h1, f2, g2, h2, (i, j). do 3 (split; [auto|]).
  assert (L : (n <? n_dofs D2 e)%nat = true) by (apply Nat.ltb_lt; auto).
  constructor; auto; intro p; unfold phi2, dphi2, d2phi2, guard; rewrite L; cbn [Nat.ltb Nat.leb Nat.eqb];
   unfold factors, at_; rewrite B; cbn [bind fst snd]; rewrite ?F1, ?G1, ?H1, ?F2, ?G2, ?H2; reflexivity.
Qed.

(** ** derivatives *)
Lemma deriv_of_rem f x d (C : Q) : 0 <= C ->
  (forall h, Qabs h <= 1 -> Qabs (f (x + h) - f x - d * h) <= C * (Qabs h * Qabs h)) -> deriv_at f x d.
Proof.
  intros HC H eps He. exists (Qmin 1 (eps / (C + 1))).
  assert (0 < eps / (C + 1)) by (apply Qlt_shift_div_l; lra).
  split; [apply Q.min_glb_lt; lra|]. intros h Hh.
  assert (H1 : Qabs h <= 1) by (eapply Qle_trans; [apply Hh|apply Q.le_min_l]).
  assert (H2 : Qabs h <= eps / (C + 1)) by (eapply Qle_trans; [apply Hh|apply Q.le_min_r]).
  eapply Qle_trans; [apply H; auto|]. pose proof (Qabs_nonneg h) as P. rewrite Qmult_assoc.
  apply Qmult_le_compat_r; auto.
  assert ((C + 1) * Qabs h <= (C + 1) * (eps / (C + 1))) by (apply Qmult_le_l; lra).
  assert ((C + 1) * (eps / (C + 1)) == eps) by (field; lra). nra.
Qed.
Lemma Qabs_sq h : Qabs (h * h) == Qabs h * Qabs h.
Proof. apply Qabs_Qmult. Qed.
Lemma cub_rem_bound c x : exists C, 0 <= C /\ forall h, Qabs h <= 1 -> Qabs (cub_rem c x h) <= C.
Proof.
  destruct c as [[[a b] c] d]. exists (Qabs (c + 3 * d * x) + Qabs d). split.
  { pose proof (Qabs_nonneg (c + 3 * d * x)). pose proof (Qabs_nonneg d). lra. }
  intros h Hh. unfold cub_rem. eapply Qle_trans; [apply Qabs_triangle|]. apply Qplus_le_compat; [apply Qle_refl|].
  rewrite Qabs_Qmult. pose proof (Qabs_nonneg d). nra.
Qed.
Lemma cub_rem_x_bound c x : exists C, 0 <= C /\ forall h, Qabs h <= 1 -> Qabs (cub_rem_x c x h) <= C.
Proof.
  destruct c as [[[a b] c] d]. exists (Qabs (3 * d)). split; [apply Qabs_nonneg|]. intros h Hh. apply Qle_refl.
Qed.
Lemma deriv_scaled (f g : Q -> Q) (k x d : Q) (r : Q -> Q) :
  (forall y, g y == k * f y) ->
  (forall h, f (x + h) - f x - d * h == h * h * r h) ->
  (exists C, 0 <= C /\ forall h, Qabs h <= 1 -> Qabs (r h) <= C) ->
  forall d', d' == k * d -> deriv_at g x d'.
Proof.
  intros HG HR [C [HC B]] d' Hd. apply (@deriv_of_rem g x d' (Qabs k * C)).
  { apply Qmult_le_0_compat; auto. apply Qabs_nonneg. }
  intros h Hh. rewrite !HG, Hd.
  assert (E : k * f (x + h) - k * f x - k * d * h == k * (h * h * r h)) by (rewrite <- HR; ring).
  rewrite E, !Qabs_Qmult. pose proof (B h Hh). pose proof (Qabs_nonneg k). pose proof (Qabs_nonneg h).
  pose proof (Qabs_nonneg (r h)).
  assert (0 <= Qabs h * Qabs h) by (apply Qmult_le_0_compat; auto).
  setoid_replace (Qabs k * C * (Qabs h * Qabs h)) with (Qabs k * (Qabs h * Qabs h * C)) by ring.
  assert (Qabs h * Qabs h * Qabs (r h) <= Qabs h * Qabs h * C).
  { rewrite (Qmult_comm _ (Qabs (r h))), (Qmult_comm _ C). apply Qmult_le_compat_r; auto. }
  rewrite (Qmult_comm (Qabs k)), (Qmult_comm (Qabs k)). apply Qmult_le_compat_r; auto.
Qed.
Lemma deriv_cub (g : Q -> Q) c k x d : (forall y, g y == k * cub c y) -> d == k * cub_x c x -> deriv_at g x d.
Proof.
  intros HG Hd. eapply (@deriv_scaled (cub c) g k x (cub_x c x) (cub_rem c x)); auto.
  - intro h. apply cub_expand.
  - apply cub_rem_bound.
Qed.
Lemma deriv_cub_x (g : Q -> Q) c k x d : (forall y, g y == k * cub_x c y) -> d == k * cub_xx c x -> deriv_at g x d.
Proof.
  intros HG Hd. eapply (@deriv_scaled (cub_x c) g k x (cub_xx c x) (cub_rem_x c x)); auto.
  - intro h. apply cub_x_expand.
  - apply cub_rem_x_bound.
Qed.

(** ** sums *)
Lemma sumQ_ext l1 l2 : Forall2 Qeq l1 l2 -> sumQ l1 == sumQ l2.
Proof. induction 1; cbn; [reflexivity|]. rewrite H, IHForall2. reflexivity. Qed.
Lemma sumQ_map_ext {X} (f g : X -> Q) l : (forall x, In x l -> f x == g x) -> sumQ (map f l) == sumQ (map g l).
Proof. induction l; cbn; intro H; [reflexivity|]. rewrite H by auto. rewrite IHl by auto. reflexivity. Qed.
Lemma sumQ_scale {X} (f : X -> Q) k l : sumQ (map (fun x => f x * k) l) == sumQ (map f l) * k.
Proof. induction l; cbn; [ring|]. rewrite IHl. ring. Qed.
Lemma sumQ_plus {X} (f g : X -> Q) l : sumQ (map (fun x => f x + g x) l) == sumQ (map f l) + sumQ (map g l).
Proof. induction l; cbn; [ring|]. rewrite IHl. ring. Qed.

Definition nd (e : elem) : list Q :=
  match e with DQ0 => [1 # 2] | Q1 | DQ1 => [0; 1] | Q2 | DQ2 => [0; 1; 1 # 2] | Q3 | DQ3 => [0; 1; 1 # 3; 2 # 3] end.
Definition ndi (e : elem) (i : nat) : Q := nth i (nd e) 0.
Definition cf (e : elem) (i : nat) : Q * Q * Q * Q := nth i (coefs e) (0, 0, 0, 0).
Lemma nodes1_spec e : Forall2 Qeq (reference_nodes1 e) (nd e).
Proof. destruct e; vm_compute; repeat constructor. Qed.
Lemma nodes2_spec e : Forall2 peq (reference_nodes2 e) (map (fun ij => (ndi e (fst ij), ndi e (snd ij))) (basis_index2 e)).
Proof. destruct e; vm_compute; repeat constructor. Qed.
Lemma nodes1_nth e i : (i < n_dofs D1 e)%nat -> exists x, at_ (reference_nodes1 e) i = Ok x /\ x == ndi e i.
Proof.
  intro H. pose proof (nodes1_spec e) as F. unfold at_, ndi.
  assert (L : length (nd e) = n_dofs D1 e) by (destruct e; reflexivity). rewrite <- L in H. clear L.
  revert i H. induction F; intros i Hi; cbn in Hi; [lia|]. destruct i as [|i]; [cbn; eauto|]. cbn. apply IHF. lia.
Qed.
Lemma nodes2_nth e n ij : nth_error (basis_index2 e) n = Some ij ->
  exists p, at_ (reference_nodes2 e) n = Ok p /\ peq p (ndi e (fst ij), ndi e (snd ij)).
Proof.
  pose proof (nodes2_spec e) as F. intro H.
  assert (H' : nth_error (map (fun ij => (ndi e (fst ij), ndi e (snd ij))) (basis_index2 e)) n = Some (ndi e (fst ij), ndi e (snd ij))).
  { apply map_nth_error with (f := fun ij => (ndi e (fst ij), ndi e (snd ij))) in H. exact H. }
  clear H. revert n H'. unfold at_. induction F; intros n Hi; [destruct n; discriminate|].
  destruct n as [|n]; [cbn in Hi; injection Hi as ->; cbn; eauto|]. cbn. apply IHF. exact Hi.
Qed.
Lemma poly_proper c x y : x == y -> poly c x == poly c y.
Proof. intro E. induction c; cbn; [reflexivity|]. rewrite IHc, E. reflexivity. Qed.
Lemma rep1 e c x : (length c <= S (degree e))%nat ->
  sumQ (map (fun i => poly c (ndi e i) * cub (cf e i) x) (seq 0 (n_dofs D1 e))) == poly c x.
Proof.
  destruct e; cbn [degree]; intro H;
   (do 5 (destruct c as [|? c]; [unfold ndi, cf; cbn; ring|cbn [length] in H; try lia])).
Qed.
Lemma rep1_x e x : sumQ (map (fun i => cub_x (cf e i) x) (seq 0 (n_dofs D1 e))) == 0 /\
  sumQ (map (fun i => cub_xx (cf e i) x) (seq 0 (n_dofs D1 e))) == 0.
Proof. destruct e; split; unfold cf; cbn; ring. Qed.
Lemma tensor e (g : nat -> nat -> Q) : sumQ (map (fun ij => g (fst ij) (snd ij)) (basis_index2 e)) ==
  sumQ (map (fun j => sumQ (map (fun i => g i j) (seq 0 (n_dofs D1 e)))) (seq 0 (n_dofs D1 e))).
Proof. destruct e; cbn; ring. Qed.
Lemma tensor_mul e (a b : nat -> Q) : sumQ (map (fun ij => a (fst ij) * b (snd ij)) (basis_index2 e)) ==
  sumQ (map a (seq 0 (n_dofs D1 e))) * sumQ (map b (seq 0 (n_dofs D1 e))).
Proof.
  rewrite (tensor e (fun i j => a i * b j)).
  rewrite (sumQ_map_ext _ (fun j => b j * sumQ (map a (seq 0 (n_dofs D1 e))))).
  - rewrite sumQ_scale. ring.
  - intros j _. rewrite sumQ_scale. ring.
Qed.
Lemma rep2 e c p : (length c <= S (degree e))%nat -> Forall (fun r => (length r <= S (degree e))%nat) c ->
  sumQ (map (fun ij => poly2 c (ndi e (fst ij), ndi e (snd ij)) * (cub (cf e (fst ij)) (fst p) * cub (cf e (snd ij)) (snd p)))
            (basis_index2 e)) == poly2 c p.
Proof.
  intros H HF.
  rewrite (tensor e (fun i j => poly2 c (ndi e i, ndi e j) * (cub (cf e i) (fst p) * cub (cf e j) (snd p)))).
  rewrite (sumQ_map_ext _ (fun j => poly (map (fun r => poly r (ndi e j)) c) (fst p) * cub (cf e j) (snd p))).
  2:{ intros j _. unfold poly2. cbn [fst snd].
      rewrite <- (rep1 e (map (fun r => poly r (ndi e j)) c) (fst p)) by (rewrite map_length; auto).
      rewrite <- sumQ_scale. apply sumQ_map_ext. intros i _. ring. }
  unfold poly2. clear H. induction HF as [|r c Hr _ IH]; cbn [map poly].
  - clear. generalize (seq 0 (n_dofs D1 e)). induction l; cbn; [reflexivity|]. rewrite IHl. ring.
  - rewrite (sumQ_map_ext _ (fun j => poly r (ndi e j) * cub (cf e j) (snd p) +
        (poly (map (fun r => poly r (ndi e j)) c) (fst p) * cub (cf e j) (snd p)) * fst p)).
    2:{ intros j _. ring. }
    rewrite sumQ_plus, sumQ_scale, IH, rep1 by auto. ring.
Qed.
Lemma poly2_proper c p q : peq p q -> poly2 c p == poly2 c q.
Proof.
  intros [E1 E2]. unfold poly2. rewrite (poly_proper _ _ _ E1).
  induction c; cbn; [reflexivity|]. rewrite IHc, (poly_proper a _ _ E2). reflexivity.
Qed.
(** from values to [sums_to] *)
Lemma sums_of {X} (l : list X) (f : nat -> res Q) (g : X -> Q) s :
  (forall n x, nth_error l n = Some x -> exists v, f n = Ok v /\ v == g x) ->
  sumQ (map g l) == s -> sums_to (length l) f s.
Proof.
  intros H E.
  assert (W : exists vs, length vs = length l /\ (forall i v, nth_error vs i = Some v -> f i = Ok v) /\ sumQ vs == sumQ (map g l)).
  { clear E. revert f H. induction l as [|x l IH]; intros f H; cbn.
    - exists []. split; [auto|]. split; [intros [|i]; discriminate|reflexivity].
    - destruct (IH (fun n => f (S n))) as [vs [L [V S]]].
      { intros n y Hn. apply (H (Datatypes.S n) y Hn). }
      destruct (H 0%nat x eq_refl) as [v [Hv Ev]]. exists (v :: vs). split; [cbn; auto|]. split.
      + intros [|i] w Hw; cbn in Hw; [injection Hw as <-; auto|]. apply V. exact Hw.
      + cbn. rewrite S, Ev. reflexivity. }
  destruct W as [vs [L [V S]]]. exists vs. split; [auto|]. split; [auto|]. rewrite S. exact E.
Qed.
Lemma seq_nth1 n i x : nth_error (seq 0 n) i = Some x -> x = i /\ (i < n)%nat.
Proof.
  intro H. assert (L : (i < n)%nat). { rewrite <- (seq_length n 0). apply nth_error_Some. rewrite H. discriminate. }
  split; auto. apply nth_error_nth with (d := 0%nat) in H. rewrite seq_nth in H; auto.
Qed.
