(** * The surface glued from the root cells (for C48-C50) *)
From Coq Require Import List Arith Bool Lia QArith Lqa.
From Verif Require Import Tree Forest SpecForest Geom SpecGeom Quad SpecQuad QuadNb Fem Dof SpecDof Dof2 SpecDof2.
Import ListNotations.
Open Scope nat_scope.

Ltac four i := destruct i as [|[|[|[|i]]]]; [| | | |lia].
Lemma peq_r x : peq x x. Proof. split; reflexivity. Qed.
Lemma peq_s x y : peq x y -> peq y x. Proof. intros [A B]; split; symmetry; auto. Qed.
Lemma peq_t x y z : peq x y -> peq y z -> peq x z.
Proof. intros [A B] [C D]; split; etransitivity; eauto. Qed.
Ltac pts := unfold peq, side_pt, quarter, unit_pt, corner in *; cbn [fst snd nth Nat.add Nat.modulo Nat.divmod Nat.sub] in *.
Ltac pts' := unfold peq, side_pt, quarter, unit_pt, corner in *; cbn in *.

Lemma unit_side k t : k < 4 -> (0 <= t <= 1)%Q -> unit_pt (side_pt k t).
Proof. intros L [T1 T2]. four k; pts'; split; split; lra. Qed.
Lemma unit_corner c : unit_pt (corner c).
Proof. destruct c as [|[|[|[|[|c]]]]]; pts'; split; split; lra. Qed.
Lemma unit_quarter i x : unit_pt x -> unit_pt (quarter i x).
Proof. pose proof (unit_corner i) as U. unfold unit_pt, quarter in *. cbn [fst snd]. intros [[? ?] [? ?]]. destruct U as [[? ?] [? ?]]. split; split; lra. Qed.
Lemma unit_root p x : unit_pt x -> unit_pt (in_root p x).
Proof. intro U. induction p; cbn [in_root]; auto. apply unit_quarter; auto. Qed.
Lemma unit_peq x y : peq x y -> unit_pt x -> unit_pt y.
Proof. intros [A B] [[? ?] [? ?]]. split; split; lra. Qed.
Lemma quarter_peq i x y : peq x y -> peq (quarter i x) (quarter i y).
Proof. intros [A B]. split; cbn [quarter fst snd]; [rewrite A|rewrite B]; reflexivity. Qed.
Lemma quarter_inj i x y : peq (quarter i x) (quarter i y) -> peq x y.
Proof. unfold quarter, peq. cbn [fst snd]. intros [A B]. split; lra. Qed.
Lemma root_peq p x y : peq x y -> peq (in_root p x) (in_root p y).
Proof. intro E. induction p; cbn [in_root]; auto. apply quarter_peq; auto. Qed.
Lemma root_snoc p i x : in_root (p ++ [i]) x = in_root p (quarter i x).
Proof. induction p; cbn [in_root app]; auto. rewrite IHp. reflexivity. Qed.
Lemma root_app p r x : in_root (p ++ r) x = in_root p (in_root r x).
Proof. induction p; cbn [in_root app]; auto. rewrite IHp. reflexivity. Qed.
Lemma place_snoc p i x : p <> [] -> place (p ++ [i]) x = place p (quarter i x).
Proof. destruct p as [|r p]; [congruence|]. intros _. unfold place. cbn [hd tl app]. rewrite root_snoc. reflexivity. Qed.
Lemma place_app p r x : p <> [] -> place (p ++ r) x = place p (in_root r x).
Proof. destruct p as [|a p]; [congruence|]. intros _. unfold place. cbn [hd tl app]. rewrite root_app. reflexivity. Qed.

Lemma side_0 k : k < 4 -> peq (side_pt k 0) (corner k).
Proof. intro L. four k; pts'; split; lra. Qed.
Lemma side_1 k : k < 4 -> peq (side_pt k 1) (corner ((k + 1) mod 4)).
Proof. intro L. four k; pts'; split; lra. Qed.
Lemma side_peq k t u : (t == u)%Q -> peq (side_pt k t) (side_pt k u).
Proof. intro E. unfold peq, side_pt. cbn [fst snd]. rewrite E. split; reflexivity. Qed.
Lemma side_inj_t k t u : k < 4 -> peq (side_pt k t) (side_pt k u) -> (t == u)%Q.
Proof. intros L [A B]. four k; pts'; lra. Qed.
Lemma corner_inj c d : c < 4 -> d < 4 -> peq (corner c) (corner d) -> c = d.
Proof. intros L1 L2 [A B]. four c; four d; auto; pts'; exfalso; lra. Qed.
(** two different sides meet in a corner *)
Lemma sides_meet k l t u : k < 4 -> l < 4 -> k <> l -> (0 <= t <= 1)%Q -> (0 <= u <= 1)%Q -> peq (side_pt k t) (side_pt l u) ->
  (t == 0 /\ u == 1)%Q /\ k = (l + 1) mod 4 \/ (t == 1 /\ u == 0)%Q /\ l = (k + 1) mod 4.
Proof.
  intros L1 L2 N [T1 T2] [U1 U2] [A B]. four k; four l; try congruence; pts';
    first [ exfalso; lra | left; split; [split; lra|reflexivity] | right; split; [split; lra|reflexivity] ].
Qed.
Lemma corner_side c k t : c < 4 -> k < 4 -> (0 <= t <= 1)%Q -> peq (corner c) (side_pt k t) -> (t == 0)%Q /\ c = k \/ (t == 1)%Q /\ c = (k + 1) mod 4.
Proof.
  intros L1 L2 [T1 T2] [A B]. four c; four k; pts';
    first [ exfalso; lra | left; split; [lra|reflexivity] | right; split; [lra|reflexivity] ].
Qed.
Lemma quarter_corner i c x : i < 4 -> c < 4 -> unit_pt x -> peq (quarter i x) (corner c) -> i = c /\ peq x (corner c).
Proof.
  intros L1 L2 [[? ?] [? ?]] [A B]. four i; four c; pts'; first [ exfalso; lra | split; [reflexivity|split; lra] ].
Qed.
Lemma quarter_side i k t x : i < 4 -> k < 4 -> unit_pt x -> (0 <= t <= 1)%Q -> peq (quarter i x) (side_pt k t) ->
  i = k /\ (t <= 1 # 2)%Q /\ peq x (side_pt k (2 * t)) \/ i = (k + 1) mod 4 /\ (1 # 2 <= t)%Q /\ peq x (side_pt k (2 * t - 1)).
Proof.
  intros L1 L2 [[? ?] [? ?]] [? ?] [A B]. four i; four k; pts';
    first [ exfalso; lra
          | left; split; [reflexivity|]; split; [lra|]; split; lra
          | right; split; [reflexivity|]; split; [lra|]; split; lra ].
Qed.
Lemma quarter_first k t : k < 4 -> peq (quarter k (side_pt k t)) (side_pt k (t * (1 # 2))).
Proof. intro L. four k; pts'; split; lra. Qed.
Lemma quarter_second k t : k < 4 -> peq (quarter ((k + 1) mod 4) (side_pt k t)) (side_pt k ((1 # 2) + t * (1 # 2))).
Proof. intro L. four k; pts'; split; lra. Qed.
Lemma quarter_inner i t : i < 4 ->
  peq (quarter i (side_pt ((i + 1) mod 4) t)) (quarter ((i + 1) mod 4) (side_pt ((i + 3) mod 4) (1 - t))).
Proof. intro L. four i; pts'; split; lra. Qed.

Section surface.
Context (adj : nat -> nat -> nat -> nat -> Prop).
Hypothesis adj_lt : forall r k r' j, adj r k r' j -> k < 4 /\ j < 4.
Hypothesis adj_sym : forall r k r' j, adj r k r' j -> adj r' j r k.
Hypothesis adj_fun : forall r k r' j r'' j', adj r k r' j -> adj r k r'' j' -> r' = r'' /\ j = j'.
Hypothesis adj_irr : forall r k j, ~ adj r k r j.
Context (vert : nat -> nat -> nat).
Hypothesis vert_inj : forall r k r' j, adj r k r' j -> forall c d, c < 4 -> d < 4 -> vert r c = vert r d -> c = d.
Hypothesis adj_vert : forall r k r' j, adj r k r' j -> vert r k = vert r' ((j + 1) mod 4) /\ vert r ((k + 1) mod 4) = vert r' j.
Context (here : path -> Prop).
Hypothesis here_fam : forall p i, p <> [] -> here (p ++ [i]) -> here p /\ i < 4 /\ forall j, j < 4 -> here (p ++ [j]).
Hypothesis here_ne : forall p, here p -> p <> [].
Hypothesis here_root : forall r k r' j, adj r k r' j -> here [r].

Local Notation glue := (glued adj).
Local Notation cstep := (corner_step adj here).
Local Notation orbit := (around_corner adj here).

Lemma glue_refl a : glue a a. Proof. destruct a. apply gl_same. apply peq_r. Qed.
Lemma glue_sym a b : glue a b -> glue b a.
Proof.
  induction 1.
  - apply gl_same. apply peq_s. auto.
  - apply (gl_side adj r' j r k (1 - t)%Q); auto; [destruct H0; split; lra|]. eapply peq_t; [eassumption|]. apply side_peq. lra.
  - eapply gl_trans; eauto.
Qed.
Lemma glue_place p x y : peq x y -> glue (place p x) (place p y).
Proof. intro E. apply gl_same. apply root_peq. auto. Qed.

(** sides of neighbours are glued *)
Lemma nb_glue p k q j : nb adj p k q j -> forall t, (0 <= t <= 1)%Q -> glue (place p (side_pt k t)) (place q (side_pt j (1 - t))).
Proof.
  induction 1 as [r k r' j A|p k q j N IH|p k q j N IH|p i Np Li|p i Np Li]; intros t [T1 T2].
  - unfold place. cbn [hd tl in_root]. eapply gl_side; eauto; try apply peq_r; split; auto.
  - destruct (nb_sides _ _ _ _ _ adj_lt N) as [Lk [Lj [_ [Np Nq]]]]. rewrite !place_snoc by auto.
    eapply gl_trans; [apply glue_place; apply quarter_first; auto|].
    eapply gl_trans; [apply (IH (t * (1 # 2)))%Q; split; lra|]. apply glue_place.
    apply peq_s. eapply peq_t; [apply quarter_second; auto|]. apply side_peq. lra.
  - destruct (nb_sides _ _ _ _ _ adj_lt N) as [Lk [Lj [_ [Np Nq]]]]. rewrite !place_snoc by auto.
    eapply gl_trans; [apply glue_place; apply quarter_second; auto|].
    eapply gl_trans; [apply (IH ((1 # 2) + t * (1 # 2)))%Q; split; lra|]. apply glue_place.
    apply peq_s. eapply peq_t; [apply quarter_first; auto|]. apply side_peq. lra.
  - rewrite !place_snoc by auto. apply glue_place. apply quarter_inner; auto.
  - rewrite !place_snoc by auto. apply glue_place. apply peq_s.
    eapply peq_t; [apply quarter_inner; auto|]. apply quarter_peq. apply side_peq. lra.
Qed.
Lemma step_sym x y : cstep x y -> cstep y x.
Proof.
  intros [A [B [k [j [N H]]]]]. split; auto. split; auto. exists j, k. split; [apply nb_sym; auto|]. tauto.
Qed.
Lemma orbit_trans x y z : orbit x y -> orbit y z -> orbit x z.
Proof. intros A B. induction B as [|y w z B IH S]; auto. eapply ac_step; [apply IH; exact A|exact S]. Qed.
Lemma orbit_one x y : cstep x y -> orbit x y.
Proof. intro H. econstructor; [apply ac_refl|auto]. Qed.
Lemma orbit_sym x y : orbit x y -> orbit y x.
Proof. induction 1; [apply ac_refl|]. eapply orbit_trans; [apply orbit_one, step_sym; eauto|auto]. Qed.
Lemma orbit_lt x y : orbit x y -> snd x < 4 -> snd y < 4.
Proof.
  induction 1 as [|x y z A IH [_ [_ [k [j [N H]]]]]]; auto. intro L. destruct (nb_sides _ _ _ _ _ adj_lt N) as [Lk [Lj _]].
  destruct H as [[_ ->]|[_ ->]]; [apply Nat.mod_upper_bound; lia|auto].
Qed.
Lemma orbit_len x y : orbit x y -> length (fst x) = length (fst y).
Proof.
  induction 1 as [|x y z A IH [_ [_ [k [j [N H]]]]]]; auto. destruct (nb_sides _ _ _ _ _ adj_lt N) as [_ [_ [E _]]]. congruence.
Qed.
Lemma orbit_here x y : orbit x y -> here (fst x) -> here (fst y).
Proof. induction 1 as [|x y z A IH [_ [B _]]]; auto. Qed.
Lemma step_glue x y : cstep x y -> glue (place (fst x) (corner (snd x))) (place (fst y) (corner (snd y))).
Proof.
  intros [_ [_ [k [j [N H]]]]]. destruct (nb_sides _ _ _ _ _ adj_lt N) as [Lk [Lj _]].
  destruct H as [[-> ->]|[-> ->]].
  - eapply gl_trans; [apply glue_place; apply peq_s; apply side_0; auto|].
    eapply gl_trans; [apply (nb_glue _ _ _ _ N 0)%Q; split; lra|]. apply glue_place.
    eapply peq_t; [|apply side_1; auto]. apply side_peq. lra.
  - eapply gl_trans; [apply glue_place; apply peq_s; apply side_1; auto|].
    eapply gl_trans; [apply (nb_glue _ _ _ _ N 1)%Q; split; lra|]. apply glue_place.
    eapply peq_t; [|apply side_0; auto]. apply side_peq. lra.
Qed.
Lemma orbit_glue x y : orbit x y -> glue (place (fst x) (corner (snd x))) (place (fst y) (corner (snd y))).
Proof. induction 1; [apply glue_refl|]. eapply gl_trans; [eauto|]. apply step_glue; auto. Qed.

(** ** Two points of root cells that are glued *)
Definition touch_side (p q : path) (x y : pt) : Prop :=
  exists k j t, nb adj p k q j /\ (0 <= t <= 1)%Q /\ peq x (side_pt k t) /\ peq y (side_pt j (1 - t)).
Definition touch_corner (p q : path) (x y : pt) : Prop :=
  exists c d, c < 4 /\ d < 4 /\ peq x (corner c) /\ peq y (corner d) /\
    ((exists p' q', p = p' ++ [c] /\ q = q' ++ [d] /\ p' <> [] /\ q' <> []) \/ orbit (p, c) (q, d)).
Definition touch_orbit (r r' : nat) (x y : pt) : Prop :=
  exists c d, c < 4 /\ d < 4 /\ peq x (corner c) /\ peq y (corner d) /\ orbit ([r], c) ([r'], d).
Definition root_side (r r' : nat) (x y : pt) : Prop :=
  exists k j t, adj r k r' j /\ (0 <= t <= 1)%Q /\ peq x (side_pt k t) /\ peq y (side_pt j (1 - t)).
Lemma root_side_sym r r' x y : root_side r r' x y -> root_side r' r y x.
Proof.
  intros [k [j [t [A [[T1 T2] [X Y]]]]]]. exists j, k, (1 - t)%Q. split; auto. split; [split; lra|]. split; auto.
  eapply peq_t; [exact X|]. apply side_peq. lra.
Qed.
Lemma root_side_corner r r' x y c : root_side r r' x y -> c < 4 -> peq x (corner c) ->
  exists d, d < 4 /\ peq y (corner d) /\ cstep ([r], c) ([r'], d).
Proof.
  intros [k [j [t [A [[T1 T2] [X Y]]]]]] Lc E. destruct (adj_lt _ _ _ _ A) as [Lk Lj].
  assert (H : peq (corner c) (side_pt k t)) by (eapply peq_t; [apply peq_s; exact E|exact X]).
  assert (HR : here [r]) by (eapply here_root; eauto). assert (HR' : here [r']) by (eapply here_root; eauto).
  destruct (corner_side c k t Lc Lk ltac:(split; auto) H) as [[Z ->]|[Z ->]].
  - exists ((j + 1) mod 4). split; [apply Nat.mod_upper_bound; lia|]. split.
    + eapply peq_t; [exact Y|]. eapply peq_t; [|apply side_1; auto]. apply side_peq. lra.
    + split; [exact HR|]. split; [exact HR'|]. exists k, j. split; [apply nb_root; auto|]. auto.
  - exists j. split; auto. split.
    + eapply peq_t; [exact Y|]. eapply peq_t; [|apply side_0; auto]. apply side_peq. lra.
    + split; [exact HR|]. split; [exact HR'|]. exists k, j. split; [apply nb_root; auto|]. auto.
Qed.
Theorem root_glued a b : glue a b ->
  fst a = fst b /\ peq (snd a) (snd b) \/ root_side (fst a) (fst b) (snd a) (snd b) \/ touch_orbit (fst a) (fst b) (snd a) (snd b).
Proof.
  induction 1 as [r x y E|r k r' j t x y A T X Y|[r x] [r' y] [r'' z] G1 IH1 G2 IH2]; cbn [fst snd] in *.
  - auto.
  - right. left. exists k, j, t. auto.
  - destruct IH1 as [[-> E1]|[S1|[c [d [Lc [Ld [E1 [E2 O]]]]]]]]; destruct IH2 as [[-> E1']|[S2|[c' [d' [Lc' [Ld' [E1' [E2' O']]]]]]]].
    + left. split; auto. eapply peq_t; eauto.
    + right. left. destruct S2 as [k [j [t [A [T [X Y]]]]]]. exists k, j, t. split; auto. split; auto. split; auto. eapply peq_t; eauto.
    + right. right. exists c', d'. split; auto. split; auto. split; [eapply peq_t; eauto|]. auto.
    + right. left. destruct S1 as [k [j [t [A [T [X Y]]]]]]. exists k, j, t. split; auto. split; auto. split; auto. eapply peq_t; [apply peq_s; exact E1'|auto].
    + pose proof S1 as S1'. pose proof S2 as S2'. destruct S1 as [k [j [t [A [T [X Y]]]]]]. destruct S2 as [k' [j' [t' [A' [T' [X' Y']]]]]].
      destruct (adj_lt _ _ _ _ A) as [Lk Lj]. destruct (adj_lt _ _ _ _ A') as [Lk' Lj'].
      assert (E : peq (side_pt j (1 - t)) (side_pt k' t')) by (eapply peq_t; [apply peq_s; exact Y|exact X']).
      destruct (Nat.eq_dec j k') as [->|N].
      * left. destruct (adj_fun _ _ _ _ _ _ (adj_sym _ _ _ _ A) A') as [-> ->]. split; auto.
        apply side_inj_t in E; auto. eapply peq_t; [exact X|]. apply peq_s. eapply peq_t; [exact Y'|]. apply side_peq. lra.
      * right. right.
        assert (Hc : exists c, c < 4 /\ peq y (corner c)).
        { destruct T as [T1 T2].
          destruct (sides_meet j k' (1 - t) t' Lj Lk' N ltac:(split; lra) T' E) as [[[Z1 Z2] _]|[[Z1 Z2] _]].
          - exists j. split; auto. eapply peq_t; [exact Y|]. eapply peq_t; [|apply side_0; auto]. apply side_peq. auto.
          - exists k'. split; auto. eapply peq_t; [exact X'|]. eapply peq_t; [|apply side_0; auto]. apply side_peq. auto. }
        destruct Hc as [c [Lc Ec]].
        destruct (root_side_corner _ _ _ _ c (root_side_sym _ _ _ _ S1') Lc Ec) as [b1 [Lb [Eb Sb]]].
        destruct (root_side_corner _ _ _ _ c S2' Lc Ec) as [b2 [Lb2 [Eb2 Sb2]]].
        exists b1, b2. split; auto. split; auto. split; auto. split; auto.
        eapply orbit_trans; [apply orbit_one, step_sym; exact Sb|apply orbit_one; exact Sb2].
    + right. right. destruct (root_side_corner _ _ _ _ c' (root_side_sym _ _ _ _ S1) Lc' E1') as [b1 [Lb [Eb Sb]]].
      exists b1, d'. split; auto. split; auto. split; auto. split; auto. eapply orbit_trans; [apply orbit_one, step_sym; exact Sb|exact O'].
    + right. right. exists c, d. split; auto. split; auto. split; auto. split; auto. eapply peq_t; [apply peq_s; exact E1'|auto].
    + right. right. destruct (root_side_corner _ _ _ _ d S2 Ld E2) as [b2 [Lb2 [Eb2 Sb2]]].
      exists c, b2. split; auto. split; auto. split; auto. split; auto. eapply ac_step; eauto.
    + right. right. exists c, d'. split; auto. split; auto. split; auto. split; auto.
      assert (d = c') by (apply corner_inj; auto; eapply peq_t; [apply peq_s; exact E2|exact E1']). subst c'.
      eapply orbit_trans; eauto.
Qed.

(** ** Two cells of the same level *)
Lemma inner_step p i : p <> [] -> here (p ++ [i]) -> cstep (p ++ [i], (i + 1) mod 4) (p ++ [(i + 1) mod 4], i) /\
  cstep (p ++ [i], (i + 2) mod 4) (p ++ [(i + 1) mod 4], (i + 3) mod 4).
Proof.
  intros Np H. destruct (here_fam p i Np H) as [_ [Li F]].
  assert (N : nb adj (p ++ [i]) ((i + 1) mod 4) (p ++ [(i + 1) mod 4]) ((i + 3) mod 4)) by (apply nb_next; auto).
  assert (H' : here (p ++ [(i + 1) mod 4])) by (apply F; apply Nat.mod_upper_bound; lia).
  split; (split; [exact H|]; split; [exact H'|]; exists ((i + 1) mod 4), ((i + 3) mod 4); split; [exact N|]); cbn [fst snd].
  - left. four i; split; reflexivity.
  - right. four i; split; reflexivity.
Qed.
Theorem same_level p q : length p = length q -> here p -> here q -> forall x y, unit_pt x -> unit_pt y -> glue (place p x) (place q y) ->
  p = q /\ peq x y \/ touch_side p q x y \/ touch_corner p q x y.
Proof.
  revert q. induction p as [|i p IH] using rev_ind; intros q L Hp Hq x y Ux Uy G; [destruct (here_ne _ Hp); auto|].
  destruct q as [|j q _] using rev_ind; [destruct (here_ne _ Hq); auto|].
  rewrite !app_length in L. cbn [length] in L. assert (L' : length p = length q) by lia. clear L.
  destruct p as [|a p].
  - destruct q; [|discriminate]. cbn [app] in *. unfold place in G. cbn [hd tl in_root] in G.
    destruct (root_glued _ _ G) as [[E1 E2]|[S|[c [d [Lc [Ld [E1 [E2 O]]]]]]]]; cbn [fst snd] in *.
    + left. split; congruence.
    + right. left. destruct S as [k [l [t [A [T [X Y]]]]]]. exists k, l, t. split; [apply nb_root; auto|auto].
    + right. right. exists c, d. auto 8.
  - destruct q as [|b q]; [discriminate|]. assert (Np : a :: p <> []) by discriminate. assert (Nq : b :: q <> []) by discriminate.
    destruct (here_fam _ _ Np Hp) as [Hp' [Li Fp]]. destruct (here_fam _ _ Nq Hq) as [Hq' [Lj Fq]].
    rewrite !place_snoc in G by auto.
    set (p0 := a :: p) in *. set (q0 := b :: q) in *.
    destruct (IH q0 L' Hp' Hq' _ _ (unit_quarter i x Ux) (unit_quarter j y Uy) G) as [[E1 E2]|[S|V]].
    + rewrite <- E1 in *. clear E1. destruct Ux as [[X1 X2] [X3 X4]]. destruct Uy as [[Y1 Y2] [Y3 Y4]].
      assert (NX : forall i, i < 4 -> nb adj (p0 ++ [i]) ((i + 1) mod 4) (p0 ++ [(i + 1) mod 4]) ((i + 3) mod 4)) by (intros; apply nb_next; auto).
      assert (NP : forall i, i < 4 -> nb adj (p0 ++ [(i + 1) mod 4]) ((i + 3) mod 4) (p0 ++ [i]) ((i + 1) mod 4)) by (intros; apply nb_prev; auto).
      assert (OO : forall i, i < 4 -> orbit (p0 ++ [i], (i + 2) mod 4) (p0 ++ [(i + 2) mod 4], i)).
      { intros u Lu. apply (ac_step _ _ _ (p0 ++ [(u + 1) mod 4], (u + 3) mod 4)).
        - apply orbit_one. apply (inner_step p0 u Np (Fp u Lu)).
        - pose proof (proj2 (inner_step p0 ((u + 1) mod 4) Np (Fp _ (Nat.mod_upper_bound _ 4 ltac:(lia))))) as Z. four u; exact Z. }
      destruct (Nat.eq_dec i j) as [<-|Nij]; [left; split; auto; eapply quarter_inj; eauto|right].
      destruct (Nat.eq_dec j ((i + 1) mod 4)) as [->|N1]; [|destruct (Nat.eq_dec i ((j + 1) mod 4)) as [->|N2]].
      * left. exists ((i + 1) mod 4), ((i + 3) mod 4). destruct E2 as [E2 E3].
        four i; [exists (snd x)|exists (1 - fst x)%Q|exists (1 - snd x)%Q|exists (fst x)];
          (split; [apply NX; auto|]); pts'; (split; [split; lra|]); split; split; lra.
      * left. exists ((j + 3) mod 4), ((j + 1) mod 4). destruct E2 as [E2 E3].
        four j; [exists (1 - snd x)%Q|exists (fst x)|exists (snd x)|exists (1 - fst x)%Q];
          (split; [apply NP; auto|]); pts'; (split; [split; lra|]); split; split; lra.
      * right. assert (Ej : j = (i + 2) mod 4) by (clear - N1 N2 Nij Li Lj; four i; four j; cbn in *; congruence). subst j.
        exists ((i + 2) mod 4), i. split; auto. split; auto. destruct E2 as [E2 E3].
        split; [four i; pts'; split; lra|]. split; [four i; pts'; split; lra|]. right. apply OO; auto.
    + right. destruct S as [k [l [t [N [T [X Y]]]]]]. destruct (nb_sides _ _ _ _ _ adj_lt N) as [Lk [Ll _]]. destruct T as [T1 T2].
      destruct (quarter_side i k t x Li Lk Ux ltac:(split; auto) X) as [[-> [Ht Xs]]|[-> [Ht Xs]]];
      destruct (quarter_side j l (1 - t) y Lj Ll Uy ltac:(split; lra) Y) as [[-> [Hu Ys]]|[-> [Hu Ys]]].
      * right. exists ((k + 1) mod 4), ((l + 1) mod 4). split; [apply Nat.mod_upper_bound; lia|]. split; [apply Nat.mod_upper_bound; lia|].
        split; [eapply peq_t; [exact Xs|]; eapply peq_t; [|apply side_1; auto]; apply side_peq; lra|].
        split; [eapply peq_t; [exact Ys|]; eapply peq_t; [|apply side_1; auto]; apply side_peq; lra|]. right.
        apply (ac_step _ _ _ (p0 ++ [(k + 1) mod 4], k)); [apply orbit_one; apply (inner_step p0 k Np Hp)|].
        split; [apply Fp; apply Nat.mod_upper_bound; lia|]. split; [exact Hq|]. exists k, l. split; [apply nb_second; auto|]. auto.
      * left. exists k, l, (2 * t)%Q. split; [apply nb_first; auto|]. split; [split; lra|]. split; auto.
        eapply peq_t; [exact Ys|]. apply side_peq. lra.
      * left. exists k, l, (2 * t - 1)%Q. split; [apply nb_second; auto|]. split; [split; lra|]. split; auto.
        eapply peq_t; [exact Ys|]. apply side_peq. lra.
      * right. exists k, l. split; auto. split; auto.
        split; [eapply peq_t; [exact Xs|]; eapply peq_t; [|apply side_0; auto]; apply side_peq; lra|].
        split; [eapply peq_t; [exact Ys|]; eapply peq_t; [|apply side_0; auto]; apply side_peq; lra|]. right.
        apply (ac_step _ _ _ (p0 ++ [k], (k + 1) mod 4)); [apply orbit_one; apply step_sym; apply (inner_step p0 k Np); auto|].
        split; [apply Fp; exact Lk|]. split; [exact Hq|]. exists k, l. split; [apply nb_first; auto|]. auto.
    + right. right. destruct V as [c [d [Lc [Ld [E1 [E2 _]]]]]].
      destruct (quarter_corner i c x Li Lc Ux E1) as [-> E1']. destruct (quarter_corner j d y Lj Ld Uy E2) as [-> E2'].
      exists c, d. split; auto. split; auto. split; auto. split; auto. left. exists p0, q0. auto.
Qed.

(** ** One cell: two points of it are glued only if they are the same *)
Lemma nb_root_inv p k q j : nb adj p k q j -> forall r, p = [r] -> exists r', q = [r'] /\ adj r k r' j.
Proof.
  assert (Z : forall (p : path) x r, p <> [] -> p ++ [x] <> [r]) by (intros [|? [|]] x r H E; [congruence|discriminate|discriminate]).
  intros N. destruct N as [r k r' j A|p k q j N|p k q j N|p i Np Li|p i Np Li]; intros r0 E.
  - injection E as <-. eauto.
  - exfalso. destruct (nb_sides _ _ _ _ _ adj_lt N) as [_ [_ [_ [Np _]]]]. eapply Z; eauto.
  - exfalso. destruct (nb_sides _ _ _ _ _ adj_lt N) as [_ [_ [_ [Np _]]]]. eapply Z; eauto.
  - exfalso. eapply Z; eauto.
  - exfalso. eapply Z; eauto.
Qed.
Lemma orbit_vert r r' c d : orbit ([r], c) ([r'], d) -> c < 4 -> vert r c = vert r' d.
Proof.
  intros O. remember ([r], c) as a eqn:Ea. remember ([r'], d) as b eqn:Eb. revert r c r' d Ea Eb.
  induction O as [a|a b z O IH S]; intros r c r' d -> Eb Lc.
  - injection Eb as <- <-. auto.
  - subst z. destruct S as [_ [_ [k [j [N H]]]]]. cbn [fst snd] in *.
    pose proof (orbit_len _ _ O) as L. cbn [fst length] in L. destruct b as [bp bc]. cbn [fst snd] in *.
    destruct bp as [|x [|? ?]]; try discriminate L.
    rewrite (IH r c x bc eq_refl eq_refl Lc). destruct (nb_root_inv _ _ _ _ N x eq_refl) as [r1 [E A]]. injection E as <-.
    destruct (adj_vert _ _ _ _ A) as [V1 V2]. destruct H as [[-> ->]|[-> ->]]; auto.
Qed.
Lemma orbit_root_adj r c r' d : orbit ([r], c) ([r'], d) -> r = r' /\ c = d \/ exists k r1 j, adj r k r1 j.
Proof.
  intros O. remember ([r], c) as a eqn:Ea. remember ([r'], d) as b eqn:Eb. revert r' d Eb.
  induction O as [a|a b z O IH S]; intros r' d Eb.
  - left. rewrite Ea in Eb. injection Eb as -> ->. auto.
  - pose proof (orbit_len _ _ O) as L. rewrite Ea in L. cbn [fst length] in L. destruct b as [bp bc]. cbn [fst] in L.
    destruct bp as [|x [|? ?]]; try discriminate L. destruct (IH Ea x bc eq_refl) as [[-> ->]|H]; auto.
    right. destruct S as [_ [_ [k [j [N _]]]]]. cbn [fst] in N.
    destruct (nb_root_inv _ _ _ _ N x eq_refl) as [r1 [E A]]. eauto.
Qed.
Lemma root_inj p x y : peq (in_root p x) (in_root p y) -> peq x y.
Proof. induction p; cbn [in_root]; auto. intro H. apply IHp. eapply quarter_inj; eauto. Qed.
Theorem one_cell p x y : glue (place p x) (place p y) -> peq x y.
Proof.
  intro G. apply root_inj with (tl p). destruct (root_glued _ _ G) as [[_ E]|[[k [j [t [A _]]]]|[c [d [Lc [Ld [E1 [E2 O]]]]]]]]; cbn [place fst snd] in *.
  - exact E.
  - exfalso. eapply adj_irr; eauto.
  - eapply peq_t; [exact E1|]. apply peq_s. replace c with d; auto.
    destruct (orbit_root_adj _ _ _ _ O) as [[_ ->]|[k [r1 [j A]]]]; auto.
    symmetry. apply (vert_inj _ _ _ _ A); auto. apply (orbit_vert _ _ _ _ O Lc).
Qed.
End surface.
