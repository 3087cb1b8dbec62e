(** * Local forms as quadrature sums; linear combinations of gradients (facts for C86) *)
From Coq Require Import List Arith Bool Lia QArith Qabs Qminmax Lqa.
From Verif Require Import Tree Forest Geom SpecGeom Fem SpecFem Solver SolverFacts Assemble SpecAssemble Kernel SpecKernel Prop_Kernel NodalFacts ProblemFacts ProblemMain.
Import ListNotations.
Open Scope Q_scope.

Section Generic.
Context {X : Type} (k : kernel X deriv) (fs : list (kmap X deriv)) (Mk : made fs k) (K1 : k_n k = 1%nat) (rs : list (region X)) (RK : Forall region_ok rs).
Context (WK : forall r, In r rs -> exists v, wker k r = Ok v /\ length v = length (r_w r)) (ds : list nat).
Notation nd := (length ds).
Definition tabled (i : nat) : Prop := forall r, In r rs -> exists t, get i (r_phi r) = Ok t /\ length t = length (r_w r).
Notation fe v i := (fun r g => sum nd (fun a => shape_value i r g a * v (nth a ds 0%nat))).
Lemma gen_bilinear i j : tabled i -> tabled j -> exists l, eval_bilinear k i j nd nd rs = Ok l /\
  forall v u, bilinear_local v u (Bilinear ds ds (tab nd nd (fun a b => nth 0 (nth a (nth b l []) []) 0))) ==
    quadrature rs (fun r g => kernel_value k r g 0 * fe v i r g * fe u j r g).
Proof.
  intros Ti Tj. assert (EX : exists l, eval_bilinear k i j nd nd rs = Ok l).
  { unfold eval_bilinear. apply fold_res_total. intros acc r I. destruct (WK r I) as [v [Ev Lv]]. destruct (Ti r I) as [t1 [G1 L1]]. destruct (Tj r I) as [t2 [G2 L2]].
    rewrite Ev. cbn [bind]. rewrite G1. cbn [bind]. rewrite G2. cbn [bind]. replace (length t1 =? length v)%nat with true by (symmetry; apply Nat.eqb_eq; congruence).
    replace (length t2 =? length v)%nat with true by (symmetry; apply Nat.eqb_eq; congruence). cbn. eauto. }
  destruct EX as [l El]. exists l. split; [exact El|]. destruct (C80_bilinear fs k i j _ _ rs l Mk RK El) as [_ [_ C3]]. intros v u. cbn [bilinear_local].
  apply (quad_bilinear rs nd (fun c => v (nth c ds 0%nat)) (fun c => u (nth c ds 0%nat)) _ (fun r g => kernel_value k r g 0) (fun r g a0 => shape_value i r g a0) (fun r g a0 => shape_value j r g a0)).
  intros c d Hc Hd. rewrite tab_entry by assumption. apply C3; [assumption|assumption|lia].
Qed.
Lemma gen_linear i : tabled i -> exists l, eval_linear k i nd rs = Ok l /\ length l = nd /\
  forall v, linear_local v (Linear ds (map (fun c => nth 0 c 0) l)) == quadrature rs (fun r g => kernel_value k r g 0 * fe v i r g).
Proof.
  intros Ti. assert (EX : exists l, eval_linear k i nd rs = Ok l).
  { unfold eval_linear. apply fold_res_total. intros acc r I. destruct (WK r I) as [v [Ev Lv]]. destruct (Ti r I) as [t1 [G1 L1]].
    rewrite Ev. cbn [bind]. rewrite G1. cbn [bind]. replace (length t1 =? length v)%nat with true by (symmetry; apply Nat.eqb_eq; congruence). eauto. }
  destruct EX as [l El]. exists l. split; [exact El|]. destruct (C80_linear fs k i _ rs l Mk RK El) as [[Ll _] C3]. split; [exact Ll|]. intros v. cbn [linear_local].
  apply (quad_linear rs nd (fun c => v (nth c ds 0%nat)) _ (fun r g => kernel_value k r g 0) (fun r g a0 => shape_value i r g a0)).
  intros c Hc. rewrite (nth_map' _ l c 0 []) by lia. apply C3; [assumption|lia].
Qed.
Lemma gen_constant : exists l, eval_constant k rs = Ok l /\ nth 0 l 0 == quadrature rs (fun r g => kernel_value k r g 0).
Proof.
  assert (EX : exists l, eval_constant k rs = Ok l).
  { unfold eval_constant. apply fold_res_total. intros acc r I. destruct (WK r I) as [v [Ev Lv]]. rewrite Ev. cbn [bind]. eauto. }
  destruct EX as [l El]. exists l. split; [exact El|]. destruct (C80_constant fs k rs l Mk RK El) as [_ C3]. apply C3. lia.
Qed.
End Generic.
(** the value of a kernel in one region *)
Lemma kernel_region {X} (k : kernel X deriv) fs (r : region X) V : made fs k -> region_ok r -> kernel_eval k (r_x r) (Some (r_phi r)) (Some (r_dofs r)) = Ok V -> k_n k = 1%nat ->
  (exists v, wker k r = Ok v /\ length v = length (r_w r)) /\ forall g, (g < length (r_x r))%nat -> kernel_value k r g 0 == nth 0 (nth g V []) 0.
Proof.
  intros Mk [R1 R2] EV K1.
  assert (PP : forall q, Some (r_phi r) = Some q -> Forall (fun z => length (snd z) = length (r_x r)) q) by (intros q Q; injection Q as <-; exact R2).
  destruct (C80_eval fs k (r_x r) (Some (r_phi r)) (Some (r_dofs r)) Mk PP) as [T1 T2]. destruct (T2 V EV) as [vs F]. destruct (T1 vs F) as [V' [E' [[V1 V2] V3]]]. assert (V' = V) by congruence. subst V'.
  assert (EW : wker k r = Ok (weighted (r_w r) V)) by (unfold wker; rewrite EV; cbn [bind]; rewrite V1, R1, Nat.eqb_refl; reflexivity).
  split; [exists (weighted (r_w r) V); split; [exact EW|rewrite weighted_len; congruence]|].
  intros g Hg. rewrite (V3 g 0%nat Hg) by lia. unfold kernel_value. destruct (made_inv fs k Mk) as [Kf _]. rewrite Kf. clear - F.
  assert (Q : map (fun fd => function_value fd r g 0) (combine fs (k_d k)) = map (fun v => sample_at v g 0) vs).
  { induction F as [|fd w l l' H F IH]; [reflexivity|]. cbn [map]. rewrite IH. f_equal. unfold function_value. rewrite H. reflexivity. }
  rewrite Q. reflexivity.
Qed.

(** ** gradients *)
Definition comb (c : Q) (f g : pt -> res Q) (x : pt) : res Q := bind (f x) (fun a => bind (g x) (fun b => Ok (a + c * b))).
Lemma grad_comb q f g p fx fy gx gy c : cell_gradient q f p fx fy -> cell_gradient q g p gx gy -> cell_gradient q (comb c f g) p (fx + c * gx) (fy + c * gy).
Proof.
  intros [v [Ev F]] [w [Ew G]]. exists (v + c * w). split; [unfold comb; rewrite Ev; cbn; rewrite Ew; reflexivity|]. intros eps He.
  assert (Ha : 0 <= Qabs c) by apply Qabs_nonneg. set (eta := (eps * (1 # 2)) / (Qabs c + 1)).
  assert (Hc : 0 < Qabs c + 1) by lra. assert (He2 : 0 < eta) by (unfold eta; apply Qlt_shift_div_l; [exact Hc|rewrite Qmult_0_l; lra]).
  assert (Hb : Qabs c * eta <= eps * (1 # 2)). { setoid_replace (eps * (1 # 2)) with ((Qabs c + 1) * eta) by (unfold eta; field; lra). nra. }
  destruct (F (eps * (1 # 2)) ltac:(lra)) as [d1 [P1 D1]]. destruct (G eta He2) as [d2 [P2 D2]]. exists (Qmin d1 d2).
  split; [destruct (Q.min_spec d1 d2) as [[_ ->]|[_ ->]]; assumption|]. intros x U A1 A2.
  destruct (D1 x U) as [v' [Ev' B1]]; [eapply Qle_trans; [exact A1|apply Q.le_min_l]|eapply Qle_trans; [exact A2|apply Q.le_min_l]|].
  destruct (D2 x U) as [w' [Ew' B2]]; [eapply Qle_trans; [exact A1|apply Q.le_min_r]|eapply Qle_trans; [exact A2|apply Q.le_min_r]|].
  exists (v' + c * w'). split; [unfold comb; rewrite Ev'; cbn; rewrite Ew'; reflexivity|]. cbn zeta in *.
  set (dx := fst (qmap q (fst x) (snd x)) - fst (qmap q (fst p) (snd p))) in *. set (dy := snd (qmap q (fst x) (snd x)) - snd (qmap q (fst p) (snd p))) in *.
  setoid_replace (v' + c * w' - (v + c * w) - (fx + c * gx) * dx - (fy + c * gy) * dy) with ((v' - v - fx * dx - fy * dy) + c * (w' - w - gx * dx - gy * dy)) by ring.
  eapply Qle_trans; [apply Qabs_triangle|]. rewrite Qabs_Qmult. set (N := Qabs dx + Qabs dy) in *.
  assert (HN : 0 <= N) by (unfold N; pose proof (Qabs_nonneg dx); pose proof (Qabs_nonneg dy); lra).
  assert (B3 : Qabs c * Qabs (w' - w - gx * dx - gy * dy) <= Qabs c * (eta * N)) by (rewrite !(Qmult_comm (Qabs c)); apply Qmult_le_compat_r; assumption).
  assert (B4 : Qabs c * eta * N <= eps * (1 # 2) * N) by (apply Qmult_le_compat_r; assumption).
  setoid_replace (eps * N) with (eps * (1 # 2) * N + eps * (1 # 2) * N) by (field). rewrite Qmult_assoc in B3. lra.
Qed.
Lemma grad_zero q p : cell_gradient q (fun _ => Ok 0) p 0 0.
Proof.
  exists 0. split; [reflexivity|]. intros eps He. exists 1. split; [lra|]. intros x _ _ _. exists 0. split; [reflexivity|]. cbn zeta.
  eapply Qle_trans; [apply Qle_lteq; right; apply Qabs_wd with (y := 0); ring|].
  change (Qabs 0) with 0. apply Qmult_le_0_compat; [lra|]. match goal with |- _ <= Qabs ?a + Qabs ?b => pose proof (Qabs_nonneg a); pose proof (Qabs_nonneg b) end. lra.
Qed.
(** the combination of the first n functions *)
Fixpoint combs (n : nat) (c : nat -> Q) (f : nat -> pt -> res Q) : pt -> res Q :=
  match n with O => fun _ => Ok 0 | S n => comb (c n) (combs n c f) (f n) end.
Lemma grad_combs q p n c f gx gy : (forall k, (k < n)%nat -> cell_gradient q (f k) p (gx k) (gy k)) ->
  cell_gradient q (combs n c f) p (sum n (fun k => c k * gx k)) (sum n (fun k => c k * gy k)).
Proof.
  induction n as [|n IH]; intros H; [apply grad_zero|]. 
  assert (G := grad_comb q _ _ p _ _ _ _ (c n) (IH (fun k L => H k (Nat.lt_lt_succ_r _ _ L))) (H n (Nat.lt_succ_diag_r n))).
  cbn [combs]. destruct G as [v [Ev G]]. exists v. split; [exact Ev|]. intros eps He. destruct (G eps He) as [d [Hd D]]. exists d. split; [exact Hd|]. intros x U A1 A2. destruct (D x U A1 A2) as [v' [Ev' B]].
  exists v'. split; [exact Ev'|]. cbn zeta in *. rewrite !sum_S. exact B.
Qed.
Lemma combs_value n c f x (y : nat -> Q) : (forall k, (k < n)%nat -> f k x = Ok (y k)) -> exists v, combs n c f x = Ok v /\ v == sum n (fun k => c k * y k).
Proof.
  induction n as [|n IH]; intros H; [exists 0; split; [reflexivity|rewrite sum_0; reflexivity]|].
  destruct IH as [v [Ev Qv]]; [intros k L; apply H; lia|]. exists (v + c n * y n). cbn [combs]. unfold comb. rewrite Ev. cbn [bind]. rewrite (H n) by lia. split; [reflexivity|]. rewrite sum_S, Qv. reflexivity.
Qed.
