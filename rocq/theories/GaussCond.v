(** * GaussianField.condition: hard constraints *)
From Coq Require Import List Arith Reals Lia Lra Setoid Morphisms.
From Verif Require Import Tree RMat Spd SpecSpd SpdFacts SpdEig SpdKer Prop_Eig Prop_Chol Gauss SpecGauss GaussFacts.
Import ListNotations.
Local Open Scope R_scope.

(** ** Inversion of the array operations *)
Lemma bind_ok : forall (A B : Type) (r : res A) (k : A -> res B) y, bind r k = Ok y ->
  exists x, r = Ok x /\ k x = Ok y.
Proof. intros A B [x|e] k y H; cbn in H; [eauto|discriminate]. Qed.
Lemma np_dot_inv : forall A B C, np_dot A B = Ok C ->
  a_c A = a_r B /\ C = mkarr (a_r A) (a_c B) (mmul (a_c A) (a_m A) (a_m B)).
Proof.
  intros A B C H. unfold np_dot in H. destruct (Nat.eqb_spec (a_c A) (a_r B)) as [E|]; [|discriminate].
  injection H as <-. auto.
Qed.
Lemma np_solve_inv : forall ls A b X, np_solve ls A b = Ok X ->
  exists x, a_r A = a_c A /\ a_r b = a_r A /\ X = mkarr (a_r A) (a_c b) x /\ ls (a_r A) (a_m A) (a_m b) = Some x.
Proof.
  intros ls A b X H. unfold np_solve in H.
  destruct (Nat.eqb_spec (a_r A) (a_c A)) as [E1|]; [|discriminate].
  destruct (Nat.eqb_spec (a_r b) (a_r A)) as [E2|]; [|discriminate]. cbn [andb] in H.
  destruct (ls _ _ _) as [x|] eqn:E; [|discriminate]. injection H as <-. eauto.
Qed.
Lemma np_op_inv : forall f A B X, np_op f A B = Ok X ->
  bdim (a_r A) (a_r B) = Some (a_r X) /\ bdim (a_c A) (a_c B) = Some (a_c X) /\
  forall i j, a_m X i j = f (a_m A (bidx (a_r A) (a_r X) i) (bidx (a_c A) (a_c X) j))
                            (a_m B (bidx (a_r B) (a_r X) i) (bidx (a_c B) (a_c X) j)).
Proof.
  intros f A B X H. unfold np_op in H.
  destruct (bdim (a_r A) (a_r B)) as [r|]; [|discriminate].
  destruct (bdim (a_c A) (a_c B)) as [c|]; [|discriminate]. injection H as <-. auto.
Qed.
Lemma spd_call_inv : forall o b f X, spd_call o b f = Ok X ->
  a_r b = spd_size o /\ exists y, f (a_m b) = Ok y /\ X = mkarr (spd_size o) (a_c b) y.
Proof.
  intros o b f X H. unfold spd_call in H.
  destruct o; try discriminate;
    match type of H with context[(?x =? ?y)%nat] => destruct (Nat.eqb_spec x y) as [E|] end; try discriminate;
    apply bind_ok in H; destruct H as (y & Ey & H); injection H as <-; split; eauto.
Qed.

Lemma bdim_cases : forall a b c, bdim a b = Some c -> (a = c /\ b = c) \/ (a = 1 /\ b = c)%nat \/ (a = c /\ b = 1)%nat.
Proof.
  intros a b c H. unfold bdim in H. destruct (Nat.eqb_spec a b); [injection H as <-; auto|].
  destruct (Nat.eqb_spec a 1); [injection H as <-; auto|].
  destruct (Nat.eqb_spec b 1); [injection H as <-; auto|discriminate].
Qed.

(** KAT and AKAT: shapes, and AKAT = Ak KAT *)
Lemma cond_KAT_inv : forall f Ak md KAT AKAT, cond_KAT f Ak md = Ok (Some (KAT, AKAT)) ->
  a_c KAT = a_r Ak /\ a_c Ak = a_r KAT /\ AKAT = mkarr (a_r Ak) (a_r Ak) (mmul (a_c Ak) (a_m Ak) (a_m KAT)).
Proof.
  intros f Ak md KAT AKAT H. unfold cond_KAT in H.
  assert (G : forall r, bind r (fun KAT => bind (np_dot Ak KAT) (fun AKAT => Ok (Some (KAT, AKAT)))) = Ok (Some (KAT, AKAT)) ->
    (forall X, r = Ok X -> a_c X = a_c (np_T Ak)) ->
    a_c KAT = a_r Ak /\ a_c Ak = a_r KAT /\ AKAT = mkarr (a_r Ak) (a_r Ak) (mmul (a_c Ak) (a_m Ak) (a_m KAT))).
  { intros r Hb Hr. apply bind_ok in Hb. destruct Hb as (X & EX & Hb).
    apply bind_ok in Hb. destruct Hb as (Y & EY & Hb). injection Hb as <- <-.
    specialize (Hr X EX). cbn in Hr. destruct (np_dot_inv _ _ _ EY) as [E1 ->].
    split; [exact Hr|]. split; [exact E1|]. rewrite Hr. reflexivity. }
  destruct md; try discriminate.
  - destruct (g_cov f) as [o|]; [|discriminate]. apply (G _ H). intros X HX.
    apply spd_call_inv in HX. destruct HX as (_ & y & _ & ->). reflexivity.
  - destruct (g_prec f) as [o|]; [|discriminate]. apply (G _ H). intros X HX.
    apply spd_call_inv in HX. destruct HX as (_ & y & _ & ->). reflexivity.
Qed.

(** Vk, Ak: Ak = A Vk and Vk has n rows *)
Lemma cond_reduce_inv : forall f A mu e Vk Ak mk ek, cond_reduce f A mu e = Ok (Vk, Ak, mk, ek) ->
  (forall V, g_supp f = Some V -> a_r V = g_n f) -> a_c A = g_n f ->
  a_r Vk = g_n f /\ a_r Ak = a_r A /\ a_c Ak = a_c Vk /\
  meq (a_r A) (a_c Vk) (a_m Ak) (mmul (g_n f) (a_m A) (a_m Vk)).
Proof.
  intros f A mu e Vk Ak mk ek H Hs Hc. unfold cond_reduce in H. destruct (g_supp f) as [V|].
  - apply bind_ok in H. destruct H as (X & EX & H).
    do 4 (apply bind_ok in H; destruct H as (? & _ & H)). injection H as <- <- <- <-.
    destruct (np_dot_inv _ _ _ EX) as [E1 ->]. cbn. rewrite Hc.
    split; [auto|]. split; [reflexivity|]. split; [reflexivity|]. reflexivity.
  - injection H as <- <- <- <-. cbn. split; [reflexivity|]. split; [reflexivity|]. split; [auto|].
    rewrite mmul_id_r. reflexivity.
Qed.

(** a conditioned sample satisfies the constraint, in each column *)
Lemma cond_hard : forall lx ls f rnd A M e k z md X,
  gf_condition lx ls f rnd A e Sample k z md = Ok (CSample X) ->
  obs_matrix (g_n f) A = Ok M -> a_c M = g_n f -> a_r e = a_r M ->
  (forall V, g_supp f = Some V -> a_r V = g_n f) -> exact_solver ls (a_r M) ->
  a_r X = g_n f /\ (a_c e = a_c X \/ a_c e = 1%nat) /\
  forall i j, (i < a_r M)%nat -> (j < a_c X)%nat ->
    sum (g_n f) (fun l => a_m M i l * a_m X l j) = a_m e i (bidx (a_c e) (a_c X) j).
Proof.
  intros lx ls f rnd A M e k z md X H HM Hc He Hs Hx. unfold gf_condition in H.
  apply bind_ok in H. destruct H as (u & _ & H).
  apply bind_ok in H. destruct H as (mu & _ & H).
  apply bind_ok in H. destruct H as (M' & EM & H). rewrite HM in EM. injection EM as <-.
  apply bind_ok in H. destruct H as ([[[Vk Ak] mk] ek] & Er & H).
  apply bind_ok in H. destruct H as (kk & Ek & H).
  apply bind_ok in H. destruct H as (X' & EX & H). injection H as <-.
  destruct (cond_reduce_inv _ _ _ _ _ _ _ _ Er Hs Hc) as (V1 & V2 & V3 & V4).
  unfold cond_sample in EX.
  apply bind_ok in EX. destruct EX as (Xs & EXs & EX).
  apply bind_ok in EX. destruct EX as (AX & EAX & EX).
  apply bind_ok in EX. destruct EX as (r & E_r & EX).
  destruct kk as [[KAT AKAT]|]; [|discriminate].
  apply bind_ok in EX. destruct EX as (U & EU & EX).
  apply bind_ok in EX. destruct EX as (KU & EKU & EX).
  apply bind_ok in EX. destruct EX as (c & Ec & EX).
  destruct (cond_KAT_inv _ _ _ _ _ Ek) as (K1 & K2 & ->).
  destruct (np_dot_inv _ _ _ EAX) as [X1 ->]. destruct (np_dot_inv _ _ _ EKU) as [X2 ->].
  destruct (np_dot_inv _ _ _ Ec) as [X3 ->].
  destruct (np_solve_inv _ _ _ _ EU) as (x & _ & U1 & -> & U2).
  cbn [a_r a_c a_m] in *.
  destruct (np_op_inv _ _ _ _ E_r) as (R1 & R2 & R3). destruct (np_op_inv _ _ _ _ EX) as (S1 & S2 & S3).
  cbn [a_r a_c a_m] in *.
  rewrite V2 in U2. pose proof (Hx (mmul (a_c Ak) (a_m Ak) (a_m KAT)) (a_m r)) as Hx'. rewrite U2 in Hx'. cbn in Hx'.
  rewrite Hc in X1. rewrite <- X1, V1, bdim_refl in S1. injection S1 as S1.
  assert (CC : a_c X' = a_c r /\ (a_c e = a_c r \/ a_c e = 1%nat) /\ (a_c Xs = a_c r \/ a_c Xs = 1%nat)).
  { destruct (bdim_cases _ _ _ R2) as [[Y1 Y2]|[[Y1 Y2]|[Y1 Y2]]];
      destruct (bdim_cases _ _ _ S2) as [[Y3 Y4]|[[Y3 Y4]|[Y3 Y4]]]; lia. }
  destruct CC as (C1 & C2 & C3).
  split; [congruence|]. split; [rewrite C1; exact C2|].
  intros i j Hi Hj.
  assert (HX : forall l, (l < g_n f)%nat -> a_m X' l j =
    a_m Xs l (bidx (a_c Xs) (a_c r) j) - mmul (a_c Vk) (a_m Vk) (mmul (a_c KAT) (a_m KAT) x) l j).
  { intros l Hl. rewrite S3, C1, <- S1, <- X1, V1, !bidx_refl. reflexivity. }
  rewrite (sum_ext (g_n f) _ (fun l => a_m M i l * a_m Xs l (bidx (a_c Xs) (a_c r) j) -
     a_m M i l * mmul (a_c Vk) (a_m Vk) (mmul (a_c KAT) (a_m KAT) x) l j))
    by (intros l Hl; rewrite (HX l Hl); ring).
  rewrite sum_sub.
  assert (T : meq (a_r M) (a_c r) (mmul (g_n f) (a_m M) (mmul (a_c Vk) (a_m Vk) (mmul (a_c KAT) (a_m KAT) x))) (a_m r)).
  { rewrite <- (mmul_assoc (a_r M) (g_n f) (a_c Vk) (a_c r)). rewrite <- V4.
    rewrite K1, <- V3, V2. rewrite <- (mmul_assoc (a_r M) (a_c Ak) (a_r M) (a_c r)). apply Hx'. }
  rewrite C1 in Hj. specialize (T i j Hi Hj). unfold mmul at 1 in T. rewrite T.
  assert (RR : a_r r = a_r M).
  { rewrite U1. exact V2. }
  rewrite R3, RR, He, !bidx_refl, C1, Hc. unfold mmul. ring.
Qed.
