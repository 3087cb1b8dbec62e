(** * Polynomials whose derivatives vanish; gradients that vanish at a point (for C92) *)
From Coq Require Import List Arith Bool Lia QArith Qabs Lqa Qminmax.
From Verif Require Import Tree Geom SpecGeom Fem SpecFem ShapeFacts SpecInterp2 Poly2Facts Poly2Facts.
From Verif Require Prop_Patch.
Import ListNotations.
Open Scope Q_scope.

Lemma nth_padd k : forall a b, nth k (padd a b) 0 == nth k a 0 + nth k b 0.
Proof.
  induction k as [|k IH]; intros [|x a] [|y b]; cbn [padd nth]; try ring; apply IH.
Qed.
Lemma nth_pd k : forall a, nth k (pd a) 0 == inject_Z (Z.of_nat (S k)) * nth (S k) a 0.
Proof.
  induction k as [|k IH]; intros [|x a].
  - cbn. ring.
  - cbn [pd]. rewrite nth_padd. cbn [nth]. change (inject_Z (Z.of_nat 1)) with 1. ring.
  - cbn. ring.
  - cbn [pd]. rewrite nth_padd. change (nth (S k) (0 :: pd a) 0) with (nth k (pd a) 0). rewrite IH. change (nth (S (S k)) (x :: a) 0) with (nth (S k) a 0).
    rewrite (Nat2Z.inj_succ (S k)). unfold Z.succ. rewrite inject_Z_plus. change (inject_Z 1) with 1. ring.
Qed.
Lemma succ_neq k : ~ inject_Z (Z.of_nat (S k)) == 0.
Proof. unfold Qeq, inject_Z. cbn [Qnum Qden]. lia. Qed.
Lemma zero_coefs a : (forall x, poly a x == 0) -> forall k, nth k a 0 == 0.
Proof.
  induction a as [|x a IH]; intros Z k; [destruct k; reflexivity|].
  assert (Ex : x == 0) by (transitivity (poly (x :: a) 0); [cbn [poly]; ring|apply Z]). destruct k as [|k]; [exact Ex|]. cbn [nth]. apply IH.
  set (rs := map (fun i => inject_Z (Z.of_nat (S i))) (seq 0 (length a))).
  assert (N : forall i, (i < length a)%nat -> nth i rs 0 = inject_Z (Z.of_nat (S i))).
  { intros i Li. unfold rs. rewrite (nth_indep _ 0 (inject_Z (Z.of_nat 1))) by (rewrite map_length, seq_length; exact Li). rewrite (map_nth (fun i => inject_Z (Z.of_nat (S i)))), seq_nth by exact Li. reflexivity. }
  apply (Prop_Patch.C84_resolves (rs, rs) (length a)); cbn [fst].
  - unfold rs. rewrite map_length, seq_length. lia.
  - intros i j Hij. unfold rs in Hij. rewrite map_length, seq_length in Hij. rewrite !N by lia. intros E. rewrite inject_Z_injective in E. apply Nat2Z.inj in E. clear - E Hij. lia.
  - lia.
  - intros r Ir. unfold rs in Ir. apply in_map_iff in Ir. destruct Ir as [i [<- _]]. pose proof (Z (inject_Z (Z.of_nat (S i)))) as Zi. cbn [poly] in Zi.
    assert (P : ~ inject_Z (Z.of_nat (S i)) == 0) by (apply succ_neq).
    assert (Q0 : inject_Z (Z.of_nat (S i)) * poly a (inject_Z (Z.of_nat (S i))) == 0) by (rewrite Ex in Zi; rewrite <- Zi; ring). apply Qmult_integral in Q0. destruct Q0 as [Q0|Q0]; [contradiction|exact Q0].
Qed.
Lemma zero_poly a : (forall k, nth k a 0 == 0) -> forall x, poly a x == 0.
Proof. induction a as [|y a IH]; intros Z x; [reflexivity|]. cbn [poly]. rewrite (Z 0%nat : y == 0), (IH (fun k => Z (S k))). ring. Qed.
Lemma flat1 a : (forall x, poly (pd a) x == 0) -> forall x y, poly a x == poly a y.
Proof.
  intros Z. assert (C := zero_coefs _ Z). destruct a as [|b a]; [reflexivity|]. intros x y. cbn [poly].
  assert (Z' : forall x, poly a x == 0).
  { apply zero_poly. intros k. specialize (C k). rewrite nth_pd in C. cbn [nth] in C. apply Qmult_integral in C. destruct C as [C|C]; [|exact C].
    destruct (succ_neq _ C). }
  rewrite !Z'. ring.
Qed.
Lemma pd_deriv g y : deriv_at (poly g) y (poly (pd g) y).
Proof.
  destruct (pd2_partial [g] (0, y)) as [_ D]. cbn [fst snd] in D.
  intros eps He. destruct (D eps He) as [d [Hd Hx]]. exists d. split; [exact Hd|]. intros h H1. specialize (Hx h H1). unfold pdy, poly2 in Hx. cbn [map poly fst snd] in Hx.
  setoid_replace (poly g (y + h) - poly g y - poly (pd g) y * h) with (poly g (y + h) + 0 * 0 - (poly g y + 0 * 0) - (poly (pd g) y + 0 * 0) * h) by ring. exact Hx.
Qed.
Lemma flat2 c : (forall z, poly2 (pdx c) z == 0) -> (forall z, poly2 (pdy c) z == 0) -> forall z z', poly2 c z == poly2 c z'.
Proof.
  intros X Y.
  assert (A : forall x x' y, poly2 c (x, y) == poly2 c (x', y)).
  { intros x x' y. unfold poly2. cbn [fst snd]. apply flat1. intros w. transitivity (poly2 (pdx c) (w, y)); [|apply X].
    destruct (pd2_partial c (w, y)) as [D _]. cbn [fst snd] in D. apply (deriv_unique _ _ _ _ _ (fun y0 => Qeq_refl _) (pd_deriv _ w)). exact D. }
  assert (B : forall x y y', poly2 c (x, y) == poly2 c (x, y')).
  { intros x y y'. assert (G : exists g, forall y, poly2 c (x, y) == poly g y).
    { clear. unfold poly2. cbn [fst snd]. induction c as [|r c IH]; [exists []; intros y; reflexivity|]. destruct IH as [g Eg].
      exists (padd r (pscale x g)). intros y. cbn [map poly]. rewrite Eg, padd_ok, pscale_ok. ring. }
    destruct G as [g Eg]. rewrite !Eg. apply flat1. intros w. transitivity (poly2 (pdy c) (x, w)); [|apply Y].
    destruct (pd2_partial c (x, w)) as [_ D]. cbn [fst snd] in D. apply (deriv_unique _ _ _ _ _ (fun y0 => Qeq_sym _ _ (Eg y0)) (pd_deriv _ w)). exact D. }
  intros [x y] [x' y']. rewrite (A x x' y). apply B.
Qed.
(** one-sided derivatives *)
Lemma one_sided (f : Q -> Q) x a M K : 0 <= M -> 0 <= K -> 0 <= x <= 1 ->
  (forall h, Qabs h <= 1 -> Qabs (f (x + h) - f x - a * h) <= M * (Qabs h * Qabs h)) ->
  (forall eps, 0 < eps -> exists d, 0 < d /\ forall h, 0 <= x + h <= 1 -> Qabs h <= d -> Qabs (f (x + h) - f x) <= eps * (K * Qabs h)) -> a == 0.
Proof.
  intros M0 K0 Hx R L. destruct (Qeq_dec a 0) as [E|N]; [exact E|exfalso].
  assert (A : 0 < Qabs a). { destruct (Qlt_le_dec 0 (Qabs a)) as [?|Le]; [assumption|]. exfalso. apply N. pose proof (Qle_Qabs a). pose proof (Qle_Qabs (- a)) as N2. rewrite Qabs_opp in N2. lra. }
  set (b := Qabs a) in *. assert (K1 : 0 < K + 1) by lra. assert (M1 : 0 < M + 1) by lra.
  assert (He : 0 < b / (4 * (K + 1))) by (apply Qlt_shift_div_l; lra). destruct (L _ He) as [d [Hd HL]].
  set (t := Qmin (Qmin d (1 # 2)) (b / (4 * (M + 1)))).
  assert (Hb : 0 < b / (4 * (M + 1))) by (apply Qlt_shift_div_l; lra).
  assert (T0 : 0 < t) by (unfold t; apply Q.min_glb_lt; [apply Q.min_glb_lt; [exact Hd|lra]|exact Hb]).
  assert (T1 : t <= d) by (unfold t; eapply Qle_trans; [apply Q.le_min_l|apply Q.le_min_l]).
  assert (T2 : t <= 1 # 2) by (unfold t; eapply Qle_trans; [apply Q.le_min_l|apply Q.le_min_r]).
  assert (T3 : t <= b / (4 * (M + 1))) by (unfold t; apply Q.le_min_r).
  assert (T4 : M * t <= b * (1 # 4)).
  { assert (G : (b / (4 * (M + 1))) * (M + 1) == b * (1 # 4)) by (field; lra). assert (t * (M + 1) <= b / (4 * (M + 1)) * (M + 1)) by (apply Qmult_le_compat_r; lra). lra. }
  assert (T5 : b / (4 * (K + 1)) * K <= b * (1 # 4)).
  { assert (G : (b / (4 * (K + 1))) * (K + 1) == b * (1 # 4)) by (field; lra). lra. }
  assert (H : exists h, Qabs h == t /\ 0 <= x + h <= 1).
  { destruct (Qlt_le_dec (1 # 2) x) as [G|G]; [exists (- t)|exists t]; (split; [rewrite ?Qabs_opp; apply Qabs_pos; lra|lra]). }
  destruct H as [h [Eh Uh]]. assert (R' := R h ltac:(lra)). assert (L' := HL h Uh ltac:(lra)). rewrite Eh in R', L'.
  assert (S1 : Qabs (a * h) <= Qabs (f (x + h) - f x) + Qabs (f (x + h) - f x - a * h)).
  { setoid_replace (a * h) with ((f (x + h) - f x) + - (f (x + h) - f x - a * h)) at 1 by ring. eapply Qle_trans; [apply Qabs_triangle|]. rewrite Qabs_opp. lra. }
  rewrite Qabs_Qmult, Eh in S1. fold b in S1.
  assert (S2 : b / (4 * (K + 1)) * (K * t) <= b * (1 # 4) * t) by (setoid_replace (b / (4 * (K + 1)) * (K * t)) with (b / (4 * (K + 1)) * K * t) by ring; apply Qmult_le_compat_r; lra).
  assert (S3 : M * (t * t) <= b * (1 # 4) * t) by (setoid_replace (M * (t * t)) with (M * t * t) by ring; apply Qmult_le_compat_r; lra).
  assert (0 < b * t) by nra. lra.
Qed.
(** the gradient of a polynomial (of the reference coordinates) on a cell vanishes with that in the
    reference coordinates *)
Lemma zero_grad q c (f : pt -> Q) p g0 g1 : in_unit p -> (forall y, in_unit y -> f y == poly2 c y) ->
  cell_gradient q (fun y => Ok (f y)) p g0 g1 -> g0 == 0 -> g1 == 0 -> poly2 (pdx c) p == 0 /\ poly2 (pdy c) p == 0.
Proof.
  intros Up Ef [v [Ev CG]] G0 G1. injection Ev as <-. destruct (qmap_close q) as [K [K0 HK]]. destruct p as [x y]. destruct (pd2_rem c x y) as [M [M0 HM]]. pose proof Up as [Ux Uy]. cbn [fst snd] in Ux, Uy, CG.
  assert (C : forall eps, 0 < eps -> exists d, 0 < d /\ forall h k t, in_unit (x + h, y + k) -> Qabs h <= t -> Qabs k <= t -> t <= d -> Qabs (poly2 c (x + h, y + k) - poly2 c (x, y)) <= eps * (2 * K * t)).
  { intros eps He. destruct (CG eps He) as [d [Hd HC]]. exists d. split; [exact Hd|]. intros h k t U Hh Hk Ht.
    assert (Fh : x + h - x == h) by ring. assert (Fk : y + k - y == k) by ring.
    destruct (HC (x + h, y + k) U) as [v' [Ev' Hv']]; [cbn [fst]; rewrite Fh; lra|cbn [snd]; rewrite Fk; lra|]. injection Ev' as <-. cbv zeta in Hv'. cbn [fst snd] in Hv'.
    destruct (HK (x, y) (x + h, y + k) t Up U) as [B1 B2]; [cbn [fst]; rewrite Fh; exact Hh|cbn [snd]; rewrite Fk; exact Hk|]. cbn [fst snd] in B1, B2.
    set (dx := fst (qmap q (x + h) (y + k)) - fst (qmap q x y)) in *. set (dy := snd (qmap q (x + h) (y + k)) - snd (qmap q x y)) in *.
    rewrite <- (Ef _ U), <- (Ef _ Up). rewrite G0, G1 in Hv'. setoid_replace (f (x + h, y + k) - f (x, y) - 0 * dx - 0 * dy) with (f (x + h, y + k) - f (x, y)) in Hv' by ring.
    eapply Qle_trans; [exact Hv'|]. setoid_replace (2 * K * t) with (K * t + K * t) by ring. rewrite (Qmult_comm eps), (Qmult_comm eps). apply Qmult_le_compat_r; lra. }
  split.
  - apply (one_sided (fun w => poly2 c (w, y)) x _ M (2 * K)); [exact M0|lra|exact Ux| |].
    + intros h Hh. specialize (HM h 0 Hh ltac:(cbn; lra)). rewrite (poly2_proper c (x + h, y + 0) (x + h, y)) in HM by (split; cbn; ring).
      setoid_replace (poly2 c (x + h, y) - poly2 c (x, y) - poly2 (pdx c) (x, y) * h) with (poly2 c (x + h, y) - poly2 c (x, y) - poly2 (pdx c) (x, y) * h - poly2 (pdy c) (x, y) * 0) by ring.
      eapply Qle_trans; [exact HM|]. change (Qabs 0) with 0. apply Qle_lteq. right. ring.
    + intros eps He. destruct (C eps He) as [d [Hd HC]]. exists d. split; [exact Hd|]. intros h Uh Hh. specialize (HC h 0 (Qabs h)).
      rewrite (poly2_proper c (x + h, y + 0) (x + h, y)) in HC by (split; cbn; ring). apply HC; [split; cbn; lra|lra|change (Qabs 0) with 0; apply Qabs_nonneg|exact Hh].
  - apply (one_sided (fun w => poly2 c (x, w)) y _ M (2 * K)); [exact M0|lra|exact Uy| |].
    + intros h Hh. specialize (HM 0 h ltac:(cbn; lra) Hh). rewrite (poly2_proper c (x + 0, y + h) (x, y + h)) in HM by (split; cbn; ring).
      setoid_replace (poly2 c (x, y + h) - poly2 c (x, y) - poly2 (pdy c) (x, y) * h) with (poly2 c (x, y + h) - poly2 c (x, y) - poly2 (pdx c) (x, y) * 0 - poly2 (pdy c) (x, y) * h) by ring.
      eapply Qle_trans; [exact HM|]. change (Qabs 0) with 0. apply Qle_lteq. right. ring.
    + intros eps He. destruct (C eps He) as [d [Hd HC]]. exists d. split; [exact Hd|]. intros h Uh Hh. specialize (HC 0 h (Qabs h)).
      rewrite (poly2_proper c (x + 0, y + h) (x, y + h)) in HC by (split; cbn; ring). apply HC; [split; cbn; lra|change (Qabs 0) with 0; apply Qabs_nonneg|lra|exact Hh].
Qed.
