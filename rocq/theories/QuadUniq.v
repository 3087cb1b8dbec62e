(** * In a mesh without periodic edges the end points identify a half-edge (for C28) *)
From Coq Require Import List Arith Bool Lia QArith.
From Verif Require Import Tree Forest Geom SpecGeom Dcel Quad SpecForest TreeFacts ForestFacts QuadFacts QuadSplit QuadInv.
Import ListNotations.
Open Scope nat_scope.

Record uinv (s : heap) : Prop := {
  u_r : forall h, h < nh s -> R s h = false;
  u_0 : forall h, h < nh s -> B s h <> Hd s h;
  u_1 : forall h g, h < nh s -> g < nh s -> B s h = B s g -> Hd s h = Hd s g -> h = g;
  u_2 : forall h g a b c d, h < nh s -> g < nh s -> K s h = Some (a, b) -> K s g = Some (c, d) -> Hd s a = Hd s c ->
        g = h \/ T s h = Some g;
  u_3 : forall h g, h < nh s -> g < nh s -> B s h = Hd s g -> Hd s h = B s g -> T s h = Some g }.

Lemma agree_uinv s s' : agree s s' -> uinv s -> uinv s'.
Proof.
  intros [a1 a2 a3 a4 a5 a6 a7 a8 a9] [r0 r1 r2 r3 r4]. constructor; rewrite ?a1; intros.
  - rewrite a9; auto.
  - rewrite a4, a5; auto.
  - rewrite !a4, !a5 in *; auto.
  - rewrite !a7, !a5 in *. rewrite a6. eauto.
  - rewrite !a4, !a5 in *; rewrite a6; auto.
Qed.
Lemma new_vertex_uinv x s : uinv s -> uinv (new_vertex x s).
Proof. intros [r0 r1 r2 r3 r4]. constructor; cbn; auto. Qed.

Lemma he_split_u s h s' : hinv s -> uinv s -> h < nh s -> K s h = None -> he_split h s = Ok s' ->
  uinv s' /\ (Hd s' (nh s) = nv s \/ exists t0, t0 < nh s /\ P s t0 <> None /\ Hd s' (nh s) = Hd s t0).
Proof.
  intros I U L K0 E. destruct (he_split_inv s h I L K0) as [s1 [E1 [I' [X [N [G K1]]]]]].
  rewrite E in E1. injection E1 as <-.
  pose proof (u_r s U h L) as Rh.
  assert (C0 : he s' (nh s) = mkHe (B s h) (split_vm s h) None None None (option_map snd (tkids s h)) (Some (h, 0)) None (R s h)).
  { rewrite G. unfold split_he. rewrite Nat.eqb_refl. reflexivity. }
  assert (C1 : he s' (S (nh s)) = mkHe (split_vm s h) (Hd s h) None None None (option_map fst (tkids s h)) (Some (h, 1)) None (R s h)).
  { rewrite G. unfold split_he. rewrite (proj2 (Nat.eqb_neq _ _)) by lia. rewrite Nat.eqb_refl. reflexivity. }
  set (vm := split_vm s h) in *.
  assert (VM : (tkids s h = None /\ vm = nv s) \/ exists t t0 t1, T s h = Some t /\ K s t = Some (t0, t1) /\ tkids s h = Some (t0, t1) /\ t < nh s /\ T s t = Some h /\
      t0 < nh s /\ t1 < nh s /\ vm = Hd s t0 /\ B s t1 = vm /\ B s t0 = Hd s h /\ Hd s t1 = B s h /\ T s t0 = None /\ T s t1 = None /\ P s t0 <> None).
  { unfold vm, split_vm, shared. destruct (tkids s h) as [[t0 t1]|] eqn:ET; [|left; auto]. right. rewrite Rh.
    destruct (tkids_facts s h t0 t1 I L K0 ET) as [t [Et [Kt [Lt [Nt [Tt [L0 [L1 [N01 [N0 [N1' [T0 [T1 [R0 [R1 [M VV]]]]]]]]]]]]]]]].
    destruct (VV Rh) as [V1 V2]. destruct (i_k s I t t0 t1 Lt Kt) as [_ [_ [P0 _]]].
    exists t, t0, t1. repeat split; auto. congruence. }
  destruct (i_v s I h L) as [Lb Lh].
  assert (Fr : forall g, g < nh s -> tkids s h = None -> B s g <> vm /\ Hd s g <> vm).
  { intros g Lg ET. destruct VM as [[_ ->]|(t & t0 & t1 & _ & _ & ET' & _)]; [|congruence]. destruct (i_v s I g Lg). lia. }
  assert (Nvm : B s h <> vm /\ Hd s h <> vm).
  { destruct VM as [[ET VMe]|(t & t0 & t1 & Et & Kt & ET & Lt & Tt & L0 & L1 & V0 & V1 & V2 & V3 & T0 & T1 & P0)].
    - apply Fr; auto.
    - split; [rewrite <- V3, <- V1; apply not_eq_sym, (u_0 s U); auto|rewrite V0, <- V2; apply (u_0 s U); auto]. }
  assert (Cs : forall g, g < nh s' -> g < nh s \/ g = nh s \/ g = S (nh s)) by (intros; lia).
  (* old half-edges between an end of h and its midpoint *)
  assert (Un : forall g, g < nh s -> ~ (B s g = B s h /\ Hd s g = vm) /\ ~ (B s g = vm /\ Hd s g = Hd s h)).
  { intros g Lg. destruct VM as [[ET VMe]|(t & t0 & t1 & Et & Kt & ET & Lt & Tt & L0 & L1 & V0 & V1 & V2 & V3 & T0 & T1 & P0)].
    - destruct (Fr g Lg ET). tauto.
    - split; intros [E1 E2].
      + pose proof (u_3 s U t1 g L1 Lg ltac:(congruence) ltac:(congruence)). congruence.
      + pose proof (u_3 s U t0 g L0 Lg ltac:(congruence) ltac:(congruence)). congruence. }
  assert (Op : forall g, g < nh s -> (B s g = vm /\ Hd s g = B s h -> exists t0 t1, tkids s h = Some (t0, t1) /\ g = t1) /\
                                   (Hd s g = vm /\ B s g = Hd s h -> exists t0 t1, tkids s h = Some (t0, t1) /\ g = t0)).
  { intros g Lg. destruct VM as [[ET VMe]|(t & t0 & t1 & Et & Kt & ET & Lt & Tt & L0 & L1 & V0 & V1 & V2 & V3 & T0 & T1 & P0)].
    - destruct (Fr g Lg ET). tauto.
    - split; intros [E1 E2]; exists t0, t1; split; auto; apply (u_1 s U); auto; congruence. }
  assert (Old : forall g, g < nh s -> B s' g = B s g /\ Hd s' g = Hd s g) by (intros g Lg; split; [apply (e_b _ _ X)|apply (e_h _ _ X)]; auto).
  assert (TN : forall t0 t1, tkids s h = Some (t0, t1) -> T s' t0 = Some (S (nh s)) /\ T s' t1 = Some (nh s)).
  { intros t0 t1 ET. assert (T1 : T s' (nh s) = Some t1) by (rewrite C0, ET; auto). assert (T0 : T s' (S (nh s)) = Some t0) by (rewrite C1, ET; auto).
    split; [apply (i_t s' I' (S (nh s)) t0); auto; lia|apply (i_t s' I' (nh s) t1); auto; lia]. }
  split; [|rewrite C0; cbn; fold vm; destruct VM as [[_ ->]|(t & t0 & t1 & Et & Kt & ET & Lt & Tt & L0 & L1 & V0 & V1 & V2 & V3 & T0 & T1 & P0)]; [auto|right; eauto]].
  constructor.
  - intros g Lg. destruct (Cs g Lg) as [Lo|[->| ->]]; [rewrite (e_r _ _ X) by auto; apply (u_r s U); auto|rewrite C0; auto|rewrite C1; auto].
  - intros g Lg. destruct (Cs g Lg) as [Lo|[->| ->]]; [destruct (Old g Lo) as [-> ->]; apply (u_0 s U); auto|rewrite C0; cbn; tauto|rewrite C1; cbn; apply not_eq_sym; tauto].
  - intros g g' Lg Lg'. destruct (Cs g Lg) as [Lo|[->| ->]], (Cs g' Lg') as [Lo'|[->| ->]]; auto; rewrite ?C0, ?C1; cbn; intros E1 E2.
    + destruct (Old g Lo) as [A1 A2], (Old g' Lo') as [A3 A4]. apply (u_1 s U); auto; congruence.
    + exfalso. destruct (Old g Lo) as [A1 A2]. apply (proj1 (Un g Lo)). split; congruence.
    + exfalso. destruct (Old g Lo) as [A1 A2]. apply (proj2 (Un g Lo)). split; congruence.
    + exfalso. destruct (Old g' Lo') as [A1 A2]. apply (proj1 (Un g' Lo')). split; congruence.
    + exfalso. apply (proj1 Nvm). auto.
    + exfalso. destruct (Old g' Lo') as [A1 A2]. apply (proj2 (Un g' Lo')). split; congruence.
    + exfalso. apply (proj1 Nvm). auto.
  - intros g g' a b c d Lg Lg' Kg Kg'. 
    assert (KN : forall x, x < nh s' -> K s' x <> None -> x < nh s /\ (x = h \/ (x <> h /\ K s' x = K s x))).
    { intros x Lx Kx. destruct (Cs x Lx) as [Lo|[->| ->]]; [|rewrite C0 in Kx; cbn in Kx; congruence|rewrite C1 in Kx; cbn in Kx; congruence].
      split; auto. destruct (Nat.eq_dec x h); auto. right. split; auto. rewrite G.
      destruct (split_old s h x Lo) as [_ [_ [_ [_ [_ [_ [_ [Q _]]]]]]]]. rewrite Q, (proj2 (Nat.eqb_neq x h)) by auto. auto. }
    destruct (KN g Lg ltac:(congruence)) as [Lo Cg]. destruct (KN g' Lg' ltac:(congruence)) as [Lo' Cg'].
    (* an old half-edge with midpoint vm *)
    assert (MM : forall x y z, x < nh s -> K s x = Some (y, z) -> Hd s y = vm -> T s h = Some x).
    { intros x y z Lx Kx Hy. destruct (i_k s I x y z Lx Kx) as [Ly _]. destruct VM as [[ET VMe]|(t & t0 & t1 & Et & Kt & ET & Lt & Tt & L0 & L1 & V0 & V1 & V2 & V3 & T0 & T1 & P0)].
      - destruct (Fr y Ly ET). congruence.
      - destruct (u_2 s U t x t0 t1 y z Lt Lx Kt Kx ltac:(congruence)) as [->|Tx]; auto. exfalso. assert (x = h) by congruence. subst. congruence. }
    destruct Cg as [->|[Ng Eg]], Cg' as [->|[Ng' Eg']]; auto.
    + rewrite K1 in Kg. injection Kg as <- <-. rewrite Eg' in Kg'. destruct (i_k s I g' c d Lo' Kg') as [Lc _].
      rewrite C0. cbn. destruct (Old c Lc) as [_ ->]. intros Em. right. apply (e_t _ _ X); auto. apply (MM g' c d); auto.
    + rewrite K1 in Kg'. injection Kg' as <- <-. rewrite Eg in Kg. destruct (i_k s I g a b Lo Kg) as [La _].
      rewrite C0. cbn. destruct (Old a La) as [_ ->]. intros Em. right. apply (e_t _ _ X); auto.
      apply (i_t s I h g L). apply (MM g a b); auto.
    + rewrite Eg in Kg. rewrite Eg' in Kg'. destruct (i_k s I g a b Lo Kg) as [La _]. destruct (i_k s I g' c d Lo' Kg') as [Lc _].
      destruct (Old a La) as [_ ->]. destruct (Old c Lc) as [_ ->]. intros Em.
      destruct (u_2 s U g g' a b c d Lo Lo' Kg Kg' Em) as [->|Tg]; auto. right. apply (e_t _ _ X); auto.
  - intros g g' Lg Lg'. destruct (Cs g Lg) as [Lo|[->| ->]], (Cs g' Lg') as [Lo'|[->| ->]]; rewrite ?C0, ?C1; cbn; intros E1 E2.
    + destruct (Old g Lo) as [A1 A2], (Old g' Lo') as [A3 A4]. apply (e_t _ _ X); auto. apply (u_3 s U); auto; congruence.
    + destruct (Old g Lo) as [A1 A2]. destruct (proj1 (Op g Lo)) as [t0 [t1 [ET ->]]]; [split; congruence|]. apply (TN _ _ ET).
    + destruct (Old g Lo) as [A1 A2]. destruct (proj2 (Op g Lo)) as [t0 [t1 [ET ->]]]; [split; congruence|]. apply (TN _ _ ET).
    + destruct (Old g' Lo') as [A1 A2]. destruct (proj1 (Op g' Lo')) as [t0 [t1 [ET ->]]]; [split; congruence|]. rewrite ET. auto.
    + exfalso. apply (proj1 Nvm). auto.
    + exfalso. apply (u_0 s U h L). auto.
    + destruct (Old g' Lo') as [A1 A2]. destruct (proj2 (Op g' Lo')) as [t0 [t1 [ET ->]]]; [split; congruence|]. rewrite ET. auto.
    + exfalso. apply (u_0 s U h L). auto.
    + exfalso. apply (proj2 Nvm). auto.
Qed.

Lemma interior_u x y s s2 s3 : hinv s -> uinv s -> x < nv s -> y < nv s -> x <> y ->
  (forall g, g < nh s -> ~ (B s g = x /\ Hd s g = y) /\ ~ (B s g = y /\ Hd s g = x)) ->
  new_he x y None None false s = Ok s2 -> make_twin (nh s) s2 = Ok s3 -> uinv s3.
Proof.
  intros I U Lx Ly Nxy Un E2 E3. destruct (interior_inv x y s I Lx Ly) as [s2' [s3' [E2' [E3' [I3 [X [N3 [V3 G]]]]]]]].
  rewrite E2 in E2'. injection E2' as <-. rewrite E3 in E3'. injection E3' as <-.
  assert (O : forall g, g < nh s -> he s3 g = he s g) by (intros g Lg; rewrite G, !(proj2 (Nat.eqb_neq g _)) by lia; auto).
  assert (UU : he s3 (nh s) = mkHe x y None None None (Some (S (nh s))) None None false) by (rewrite G, Nat.eqb_refl; auto).
  assert (DD : he s3 (S (nh s)) = mkHe y x None None None (Some (nh s)) None None false) by (rewrite G, (proj2 (Nat.eqb_neq _ _)), Nat.eqb_refl by lia; auto).
  assert (Cs : forall g, g < nh s3 -> g < nh s \/ g = nh s \/ g = S (nh s)) by (intros; lia).
  constructor.
  - intros g Lg. destruct (Cs g Lg) as [Lo|[->| ->]]; [rewrite O by auto; apply (u_r s U); auto|rewrite UU; auto|rewrite DD; auto].
  - intros g Lg. destruct (Cs g Lg) as [Lo|[->| ->]]; [rewrite O by auto; apply (u_0 s U); auto|rewrite UU; auto|rewrite DD; cbn; auto].
  - intros g g' Lg Lg'. destruct (Cs g Lg) as [Lo|[->| ->]], (Cs g' Lg') as [Lo'|[->| ->]]; auto; rewrite ?UU, ?DD; cbn; intros E1' E2'.
    + rewrite !O in * by auto. apply (u_1 s U); auto.
    + exfalso. rewrite O in * by auto. apply (proj1 (Un g Lo)). auto.
    + exfalso. rewrite O in * by auto. apply (proj2 (Un g Lo)). auto.
    + exfalso. rewrite O in * by auto. apply (proj1 (Un g' Lo')). auto.
    + exfalso. auto.
    + exfalso. rewrite O in * by auto. apply (proj2 (Un g' Lo')). auto.
    + exfalso. auto.
  - intros g g' a b c d Lg Lg' Kg Kg'. destruct (Cs g Lg) as [Lo|[->| ->]]; [|rewrite UU in Kg; discriminate|rewrite DD in Kg; discriminate].
    destruct (Cs g' Lg') as [Lo'|[->| ->]]; [|rewrite UU in Kg'; discriminate|rewrite DD in Kg'; discriminate].
    rewrite (O g) in * by auto. rewrite (O g') in * by auto. destruct (i_k s I g a b Lo Kg) as [La _].
    destruct (i_k s I g' c d Lo' Kg') as [Lc _]. rewrite !O by auto. eapply (u_2 s U); eauto.
  - intros g g' Lg Lg'. destruct (Cs g Lg) as [Lo|[->| ->]], (Cs g' Lg') as [Lo'|[->| ->]]; rewrite ?UU, ?DD; cbn; intros E1' E2'; auto.
    + rewrite !O in * by auto. apply (u_3 s U); auto.
    + exfalso. rewrite O in * by auto. apply (proj2 (Un g Lo)). auto.
    + exfalso. rewrite O in * by auto. apply (proj1 (Un g Lo)). auto.
    + exfalso. rewrite O in * by auto. apply (proj2 (Un g' Lo')). auto.
    + exfalso. auto.
    + exfalso. rewrite O in * by auto. apply (proj1 (Un g' Lo')). auto.
    + exfalso. auto.
Qed.

(** ** the first loop of QuadCell.split *)
Definition touch (vm : nat) (done : list nat) (s : heap) : Prop := forall g, g < nh s -> B s g = vm \/ Hd s g = vm ->
  P s g = None /\ exists h a b, In h done /\ K s h = Some (a, b) /\
     ((B s g = vm /\ Hd s g = Hd s a) \/ (Hd s g = vm /\ B s g = Hd s a)).

Lemma side_step_u vm done s ud h s' ud' : hinv s -> uinv s -> touch vm done s -> vm < nv s ->
  (forall x, In x (h :: done) -> x < nh s /\ B s x <> vm /\ Hd s x <> vm) -> K s h = None -> ~ In h done ->
  (forall x, In x done -> ~ (B s x = Hd s h /\ Hd s x = B s h)) ->
  side_step vm (s, ud) h = Ok (s', ud') ->
  uinv s' /\ touch vm (h :: done) s'.
Proof.
  intros I U TC Lv V K0 NI NO E.
  destruct (V h (or_introl eq_refl)) as [L [Nb Nh]].
  destruct (he_split_inv s h I L K0) as [s1 [E1 [I1 [X1 [N1 [G1 K1]]]]]].
  destruct (he_split_u s h s1 I U L K0 E1) as [U1 MID].
  assert (C0 : he s1 (nh s) = mkHe (B s h) (split_vm s h) None None None (option_map snd (tkids s h)) (Some (h, 0)) None (R s h)).
  { rewrite G1. unfold split_he. rewrite Nat.eqb_refl. reflexivity. }
  assert (C1 : he s1 (S (nh s)) = mkHe (split_vm s h) (Hd s h) None None None (option_map fst (tkids s h)) (Some (h, 1)) None (R s h)).
  { rewrite G1. unfold split_he. rewrite (proj2 (Nat.eqb_neq _ _)) by lia. rewrite Nat.eqb_refl. reflexivity. }
  set (mid := split_vm s h) in *.
  assert (EM : Hd s1 (nh s) = mid) by (rewrite C0; auto). rewrite EM in MID.
  assert (Nm : mid <> vm).
  { destruct MID as [->|[t0 [L0 [P0 ->]]]]; [lia|]. intros Q. destruct (TC t0 L0 (or_intror Q)) as [Q' _]. congruence. }
  assert (TC1 : touch vm done s1).
  { intros g Lg Hg. assert (g < nh s \/ g = nh s \/ g = S (nh s)) as [Lo|[->| ->]] by lia.
    - rewrite (e_b _ _ X1), (e_h _ _ X1) in Hg by auto. destruct (TC g Lo Hg) as [Pg [h' [a [b [Ih [Kh Vh]]]]]].
      rewrite (e_p _ _ X1), (e_b _ _ X1), (e_h _ _ X1) by auto. split; auto. exists h', a, b. split; auto.
      destruct (V h' (or_intror Ih)) as [Lh' _]. destruct (i_k s I h' a b Lh' Kh) as [La _]. rewrite (e_h _ _ X1) by auto.
      split; auto. apply (e_k _ _ X1); auto.
    - rewrite C0 in Hg. cbn in Hg. destruct Hg; congruence.
    - rewrite C1 in Hg. cbn in Hg. destruct Hg; congruence. }
  unfold side_step in E. rewrite K0, E1 in E. cbn [bind] in E. rewrite K1, EM in E.
  destruct (new_he mid vm None None false s1) as [s2|] eqn:E2; [|discriminate]. cbn [bind] in E.
  destruct (make_twin (nh s1) s2) as [s3|] eqn:E3; [|discriminate]. cbn [bind] in E. injection E as <- _.
  assert (Lm : mid < nv s1) by (rewrite <- EM; apply (i_v s1 I1); lia).
  assert (Lv1 : vm < nv s1) by (pose proof (e_nv _ _ X1); lia).
  assert (NM : forall h' a b, In h' done -> K s1 h' = Some (a, b) -> Hd s1 a <> mid).
  { intros h' a b Ih Kh Q. destruct (V h' (or_intror Ih)) as [Lh' _].
    destruct (u_2 s1 U1 h h' (nh s) (S (nh s)) a b ltac:(lia) ltac:(lia) K1 Kh ltac:(congruence)) as [->|Th]; [tauto|].
    destruct (i_t s1 I1 h h' ltac:(lia) Th) as [_ [_ [_ [_ VV]]]]. destruct (VV (u_r s1 U1 h ltac:(lia))) as [V1 V2].
    rewrite !(e_b _ _ X1), !(e_h _ _ X1) in * by auto. apply (NO h' Ih). auto. }
  split.
  - apply (interior_u mid vm s1 s2 s3); auto. intros g Lg. split; intros [Q1 Q2].
    + destruct (TC1 g Lg (or_intror Q2)) as [_ [h' [a [b [Ih [Kh [[Q3 Q4]|[Q3 Q4]]]]]]]]; [congruence|]. apply (NM h' a b); auto. congruence.
    + destruct (TC1 g Lg (or_introl Q1)) as [_ [h' [a [b [Ih [Kh [[Q3 Q4]|[Q3 Q4]]]]]]]]; [|congruence]. apply (NM h' a b); auto. congruence.
  - destruct (interior_inv mid vm s1 I1 Lm Lv1) as [s2' [s3' [E2' [E3' [I3 [X3 [N3 [V3 G3]]]]]]]].
    rewrite E2 in E2'. injection E2' as <-. rewrite E3 in E3'. injection E3' as <-.
    assert (O : forall g, g < nh s1 -> he s3 g = he s1 g) by (intros g Lg; rewrite G3, !(proj2 (Nat.eqb_neq g _)) by lia; auto).
    assert (UU : he s3 (nh s1) = mkHe mid vm None None None (Some (S (nh s1))) None None false) by (rewrite G3, Nat.eqb_refl; auto).
    assert (DD : he s3 (S (nh s1)) = mkHe vm mid None None None (Some (nh s1)) None None false) by (rewrite G3, (proj2 (Nat.eqb_neq _ _)), Nat.eqb_refl by lia; auto).
    intros g Lg Hg. assert (g < nh s1 \/ g = nh s1 \/ g = S (nh s1)) as [Lo|[->| ->]] by lia.
    + rewrite O in Hg by auto. destruct (TC1 g Lo Hg) as [Pg [h' [a [b [Ih [Kh Vh]]]]]]. rewrite (O g Lo). split; auto.
      exists h', a, b. split; [right; auto|]. destruct (V h' (or_intror Ih)) as [Lh' _].
      destruct (i_k s1 I1 h' a b ltac:(lia) Kh) as [La _]. rewrite !O by lia. auto.
    + rewrite UU. split; auto. exists h, (nh s), (S (nh s)). split; [left; auto|]. rewrite !O by lia. split; auto.
    + rewrite DD. split; auto. exists h, (nh s), (S (nh s)). split; [left; auto|]. rewrite !O by lia. split; auto.
Qed.

Lemma side_steps_u vm hs : forall done s ud s' ud', hinv s -> uinv s -> touch vm done s -> vm < nv s ->
  NoDup (hs ++ done) -> (forall x, In x (hs ++ done) -> x < nh s /\ B s x <> vm /\ Hd s x <> vm) ->
  (forall x, In x hs -> K s x = None) ->
  (forall x y, In x (hs ++ done) -> In y (hs ++ done) -> ~ (B s x = Hd s y /\ Hd s x = B s y)) ->
  fold_res (side_step vm) hs (s, ud) = Ok (s', ud') -> uinv s'.
Proof.
  induction hs as [|h hs IH]; intros done s ud s' ud' I U TC Lv ND V KN NO E.
  - cbn in E. injection E as <- _. auto.
  - cbn [fold_res] in E. destruct (V h (or_introl eq_refl)) as [L _].
    destruct (side_step_spec vm s ud h I L Lv) as [s1 [a [b [u [E1 [I1 [X1 [_ [KK [_ [_ [_ [_ [O1 _]]]]]]]]]]]]]].
    simpl in ND. inversion ND as [|? ? NIn ND1]; subst.
    destruct (side_step_u vm done s ud h s1 (ud ++ [(u, S u)]) I U TC Lv) as [U1 TC1]; [| | | |exact E1|].
    { intros x [->|Ix]; apply V; [left; auto|right; apply in_or_app; auto]. }
    { apply KN; left; auto. }
    { intros Ih. apply NIn, in_or_app. auto. }
    { intros x Ix. apply NO; [right; apply in_or_app; auto|left; auto]. }
    rewrite E1 in E. cbn [bind] in E. apply (IH (h :: done) s1 (ud ++ [(u, S u)]) s' ud'); auto.
    + pose proof (e_nv _ _ X1). lia.
    + apply (NoDup_Add (Add_app h hs done)). auto.
    + intros x Ix. assert (Ix' : In x ((h :: hs) ++ done)).
      { apply in_app_or in Ix. destruct Ix as [Ix|[->|Ix]]; [right; apply in_or_app; auto|left; auto|right; apply in_or_app; auto]. }
      destruct (V x Ix') as [Lx [B1 H1]]. rewrite (e_b _ _ X1), (e_h _ _ X1) by auto. pose proof (e_nh _ _ X1). split; [lia|auto].
    + intros x Ix. rewrite O1; [apply KN; right; auto|apply V; right; apply in_or_app; auto|].
      intros ->. apply NIn, in_or_app. auto.
    + assert (IN : forall x, In x (hs ++ h :: done) -> In x ((h :: hs) ++ done)).
      { intros x Ix. apply in_app_or in Ix. destruct Ix as [Ix|[->|Ix]]; [right; apply in_or_app; auto|left; auto|right; apply in_or_app; auto]. }
      intros x y Ix Iy. apply IN in Ix, Iy. destruct (V x Ix) as [Lx _]. destruct (V y Iy) as [Ly _].
      rewrite !(e_b _ _ X1), !(e_h _ _ X1) by auto. apply NO; auto.
Qed.

(** ** splitting a cell *)
Lemma agree_split_children p hs ud s r : split_children p hs ud s = Ok r -> agree s (fst r).
Proof.
  unfold split_children. set (l := seq 0 (length hs)). clearbody l. intros E.
  enough (Q : forall l acc r, fold_res (fun (acc : heap * list (list nat)) i => let '(s, ks) := acc in
    bind (child_hes s hs ud i) (fun c => bind (cell_init (p ++ [i]) c s) (fun s1 => Ok (s1, ks ++ [c])))) l acc = Ok r -> agree (fst acc) (fst r)).
  { apply (Q l (s, []) r E). }
  clear. induction l as [|i l IH]; intros [s ks] r E.
  - cbn in E. injection E as <-. apply agree_refl.
  - cbn [fold_res] in E. destruct (child_hes s hs ud i) as [c|] eqn:Ec; [|discriminate]. cbn [bind] in E.
    destruct (cell_init (p ++ [i]) c s) as [s1|] eqn:Ei; [|discriminate]. cbn [bind] in E.
    eapply agree_trans; [eapply agree_cell_init; eauto|]. apply (IH (s1, ks ++ [c]) r E).
Qed.

Definition corners (m : mesh2) : Prop := forall p k j, here m p -> k < 4 -> j < 4 ->
  B (hp m) (side m p k) = B (hp m) (side m p j) -> k = j.

Lemma four_nth (a b c d : nat) k j : a <> b -> a <> c -> a <> d -> b <> c -> b <> d -> c <> d -> k < 4 -> j < 4 ->
  nth k [a; b; c; d] 0 = nth j [a; b; c; d] 0 -> k = j.
Proof.
  intros ab ac ad bc bd cd Lk Lj E.
  assert (ND : NoDup [a; b; c; d]) by (repeat constructor; cbn [In]; intuition congruence).
  exact (proj1 (NoDup_nth [a; b; c; d] 0) ND k j Lk Lj E).
Qed.
Lemma kid_hes_distinct (Bf : nat -> nat) N c0 c1 c2 c3 m0 m1 m2 m3 w i k j
  (F0 : Bf (N + 4 * 0) = c0 /\ Bf (N + 4 * 0 + 1) = m0 /\ Bf (N + 4 * 0 + 2) = m0 /\ Bf (N + 4 * 0 + 3) = w)
  (F1 : Bf (N + 4 * 1) = c1 /\ Bf (N + 4 * 1 + 1) = m1 /\ Bf (N + 4 * 1 + 2) = m1 /\ Bf (N + 4 * 1 + 3) = w)
  (F2 : Bf (N + 4 * 2) = c2 /\ Bf (N + 4 * 2 + 1) = m2 /\ Bf (N + 4 * 2 + 2) = m2 /\ Bf (N + 4 * 2 + 3) = w)
  (F3 : Bf (N + 4 * 3) = c3 /\ Bf (N + 4 * 3 + 1) = m3 /\ Bf (N + 4 * 3 + 2) = m3 /\ Bf (N + 4 * 3 + 3) = w) :
  i < 4 -> k < 4 -> j < 4 ->
  c0 <> m0 -> c1 <> m0 -> c0 <> w -> m0 <> w -> c1 <> m1 -> c2 <> m1 -> c1 <> w -> m1 <> w ->
  c2 <> m2 -> c3 <> m2 -> c2 <> w -> m2 <> w -> c3 <> m3 -> c0 <> m3 -> c3 <> w -> m3 <> w ->
  m0 <> m1 -> m0 <> m3 -> m1 <> m2 -> m2 <> m3 ->
  Bf (nth k (kid_hes N i) 0) = Bf (nth j (kid_hes N i) 0) -> k = j.
Proof.
  intros Li Lk Lj; intros.
  assert (Q : forall l a b c d, l = [a; b; c; d] -> forall x, x < 4 -> Bf (nth x l 0) = nth x [Bf a; Bf b; Bf c; Bf d] 0).
  { clear. intros l a b c d -> x L. destruct x as [|[|[|[|x]]]]; [reflexivity..|exfalso; lia]. }
  destruct F0 as [a0 [b0 [e0 g0]]]. destruct F1 as [a1 [b1 [e1 g1]]]. destruct F2 as [a2 [b2 [e2 g2]]]. destruct F3 as [a3 [b3 [e3 g3]]].
  replace (N + 4 * 0) with N in * by lia. replace (N + 4 * 1) with (N + 4) in * by lia.
  replace (N + 4 * 2) with (N + 8) in * by lia. replace (N + 4 * 3) with (N + 12) in * by lia.
  rewrite <- !Nat.add_assoc in *. simpl Nat.add in *.
  destruct i as [|[|[|[|i]]]]; [| | | |exfalso; clear - Li; lia].
  - rewrite !(Q _ N (N + 2) (N + 15) (N + 13) eq_refl) in * by assumption. rewrite a0, e0, g3, b3 in *. match goal with H : nth _ [?a; ?b; ?c; ?d] _ = _ |- _ => apply (four_nth a b c d); auto end.
  - rewrite !(Q _ (N + 1) (N + 4) (N + 6) (N + 3) eq_refl) in * by assumption. rewrite b0, a1, e1, g0 in *. match goal with H : nth _ [?a; ?b; ?c; ?d] _ = _ |- _ => apply (four_nth a b c d); auto end.
  - rewrite !(Q _ (N + 7) (N + 5) (N + 8) (N + 10) eq_refl) in * by assumption. rewrite g1, b1, a2, e2 in *. match goal with H : nth _ [?a; ?b; ?c; ?d] _ = _ |- _ => apply (four_nth a b c d); auto end.
  - rewrite !(Q _ (N + 14) (N + 11) (N + 9) (N + 12) eq_refl) in * by assumption. rewrite e3, g2, b2, a3 in *. match goal with H : nth _ [?a; ?b; ?c; ?d] _ = _ |- _ => apply (four_nth a b c d); auto end.
Qed.

Theorem split_uinv fl p m m' : sinv m -> uinv (hp m) -> corners m -> cell_split fl p m = Ok m' ->
  uinv (hp m') /\ corners m'.
Proof.
  intros I U CO E. destruct (split_sinv fl p m m' I E) as [I' [X [Hp [Lf [Old [Hr Sn]]]]]].
  destruct (cell_split_ok fl p m m' I E) as [n [Fp [HC [S _]]]].
  set (N := nh (hp m)) in *. set (s := hp m) in *.
  assert (D4 : n_data n = map (side m p) [0; 1; 2; 3]) by (apply (data_sides I); auto).
  assert (SG : forall k, k < 4 -> side m p k < nh s /\ Hd s (side m p k) = B s (side m p ((k + 1) mod 4))).
  { intros k Lk. destruct (side_good I p k Hp Lk) as [a [_ [b _]]]. auto. }
  assert (SI : forall x, In x (n_data n) -> exists k, k < 4 /\ x = side m p k).
  { intros x Ix. rewrite D4 in Ix. simpl in Ix. destruct Ix as [<-|[<-|[<-|[<-|[]]]]]; [exists 0|exists 1|exists 2|exists 3]; split; auto; lia. }
  assert (OPP : forall k j, k < 4 -> j < 4 -> ~ (B s (side m p k) = Hd s (side m p j) /\ Hd s (side m p k) = B s (side m p j))).
  { intros k j Lk Lj [E1 E2]. destruct (SG k Lk) as [_ Q1]. destruct (SG j Lj) as [_ Q2]. rewrite Q1 in E2. rewrite Q2 in E1.
    apply CO in E1; auto. apply CO in E2; auto. subst k. destruct j as [|[|[|[|j]]]]; try lia; discriminate. }
  assert (U' : uinv (hp m')).
  { unfold cell_split in E. rewrite Fp, HC in E. fold s in E. set (x := mean _) in E.
    destruct (new_vertex_inv x s (s_h m I)) as [I0 [X0 E0]].
    destruct (split_sides (nv s) (n_data n) (new_vertex x s)) as [[s1 ud]|] eqn:E1; [|discriminate]. cbn [bind fst snd] in E.
    destruct (split_children p (n_data n) ud s1) as [r2|] eqn:E2; [|discriminate]. cbn [bind] in E.
    apply agree_split_children in E2. destruct (split _ n) as [n1|]; [|discriminate]. cbn [bind] in E. injection E as <-. cbn [hp].
    eapply agree_uinv; [exact E2|]. rewrite split_sides_eq in E1.
    assert (VV : forall x', In x' (n_data n) -> x' < nh s /\ B s x' < nv s /\ Hd s x' < nv s).
    { intros x' Ix. destruct (SI x' Ix) as [k [Lk ->]]. destruct (SG k Lk) as [L _]. split; auto. apply (i_v s (s_h m I)); auto. }
    apply (side_steps_u (nv s) (n_data n) [] (new_vertex x s) [] s1 ud I0 (new_vertex_uinv x s U)); auto.
    - intros g Lg [Q|Q]; rewrite E0 in Q; cbn in Lg; destruct (i_v s (s_h m I) g Lg); lia.
    - rewrite app_nil_r. assert (EI : info (cells m) p = Some (n_data n, length (n_slots n), m_regular (n_meta n))) by (unfold info; rewrite Fp; auto).
      destruct (s_cell m I _ _ _ _ EI) as [[_ [ND _]] _]. auto.
    - intros x' Ix. rewrite app_nil_r in Ix. rewrite !E0. destruct (VV x' Ix) as [V1 [V2 V3]]. cbn. split; auto. lia.
    - intros x' Ix. rewrite E0. destruct (SI x' Ix) as [k [Lk ->]]. apply (s_leaf m I); auto.
    - intros a b Ia Ib. rewrite app_nil_r in Ia, Ib. rewrite !E0.
      destruct (SI a Ia) as [k [Lk ->]]. destruct (SI b Ib) as [j [Lj ->]]. apply OPP; auto. }
  split; auto.
  assert (Co : forall k, k < 4 -> B (hp m') (side m p k) = B s (side m p k)) by (intros k Lk; apply (e_b _ _ X); apply SG; auto).
  intros q k j Hq Lk Lj EQ. destruct (proj1 (Hr q) Hq) as [Ho|[i [Li ->]]].
  - rewrite !(side_ext m m') in EQ by auto. rewrite !(e_b _ _ X) in EQ by (apply (side_good I); auto). apply (CO q); auto.
  - rewrite !Sn in EQ by auto.
    set (c := fun i => B s (side m p (i mod 4))). set (md := fun i => Hd (hp m') (N + 4 * i)).
    assert (F : forall i, i < 4 -> B (hp m') (N + 4 * i) = c i /\ B (hp m') (N + 4 * i + 1) = md i /\ Hd (hp m') (N + 4 * i + 1) = c (i + 1) /\
                B (hp m') (N + 4 * i + 2) = md i /\ B (hp m') (N + 4 * i + 3) = nv s).
    { intros a La. pose proof (p_kids _ _ _ _ S a La) as Ka. rewrite (side_in_data p n a Fp) in Ka. fold s in Ka. fold N in Ka.
      destruct (SG a La) as [Ls Q]. assert (Lh : side m p a < nh (hp m')) by (pose proof (e_nh _ _ X); lia).
      destruct (i_k _ (p_inv _ _ _ _ S) _ _ _ Lh Ka) as [_ [_ [_ [_ [q1 [q2 [q3 _]]]]]]].
      destruct (p_up _ _ _ _ S a La) as [_ [_ [_ [_ [_ [u1 [u2 [u3 u4]]]]]]]]. fold s in u1, u2, u3, u4. fold N in u1, u2, u3, u4.
      unfold c, md. rewrite (Nat.mod_small a) by auto. repeat split; auto; try congruence.
      - rewrite q1. auto.
      - rewrite q3, (e_h _ _ X) by auto. auto. }
    assert (NN : nh (hp m') = N + 16) by (apply S).
    assert (D : forall i, i < 4 -> c i <> md i /\ c (i + 1) <> md i /\ c i <> nv s /\ md i <> nv s /\ forall i', i' < 4 -> md i = md i' -> i = i').
    { intros a La. destruct (F a La) as [f1 [f2 [f3 [f4 f5]]]]. repeat split.
      - rewrite <- f1. apply (u_0 _ U'). lia.
      - rewrite <- f2, <- f3. apply not_eq_sym, (u_0 _ U'). lia.
      - unfold c. destruct (SG (a mod 4) ltac:(auto)) as [L _]. destruct (i_v s (s_h m I) _ L). lia.
      - pose proof (u_0 _ U' (N + 4 * a + 2) ltac:(lia)) as Q. rewrite f4 in Q.
        destruct (p_up _ _ _ _ S a La) as [_ [_ [_ [_ [_ [_ [u2 _]]]]]]]. fold s in u2. fold N in u2. rewrite u2 in Q. auto.
      - intros a' La' Em. pose proof (p_kids _ _ _ _ S a La) as Ka. pose proof (p_kids _ _ _ _ S a' La') as Ka'.
        rewrite (side_in_data p n a Fp) in Ka. rewrite (side_in_data p n a' Fp) in Ka'. fold s in Ka, Ka'. fold N in Ka, Ka'.
        destruct (SG a La) as [L1 _]. destruct (SG a' La') as [L2 _]. pose proof (e_nh _ _ X).
        destruct (u_2 _ U' (side m p a) (side m p a') _ _ _ _ ltac:(lia) ltac:(lia) Ka Ka' Em) as [Q|Q].
        + apply (side_inj I) in Q; auto. destruct Q; auto.
        + exfalso. destruct (i_t _ (s_h m' I') (side m p a) (side m p a') ltac:(lia) Q) as [_ [_ [_ [_ V]]]].
          destruct (V (u_r _ U' (side m p a) ltac:(lia))) as [V1 V2]. rewrite !(e_b _ _ X), !(e_h _ _ X) in V1, V2 by auto.
          apply (OPP a' a); auto. }
    destruct (F 0 ltac:(lia)) as [f00 [f01 [f02 [f03 f04]]]]. destruct (F 1 ltac:(lia)) as [f10 [f11 [f12 [f13 f14]]]].
    destruct (F 2 ltac:(lia)) as [f20 [f21 [f22 [f23 f24]]]]. destruct (F 3 ltac:(lia)) as [f30 [f31 [f32 [f33 f34]]]].
    destruct (D 0 ltac:(lia)) as [d00 [d01 [d02 [d03 d04]]]]. destruct (D 1 ltac:(lia)) as [d10 [d11 [d12 [d13 d14]]]].
    destruct (D 2 ltac:(lia)) as [d20 [d21 [d22 [d23 d24]]]]. destruct (D 3 ltac:(lia)) as [d30 [d31 [d32 [d33 d34]]]].
    pose proof (d04 1 ltac:(lia)) as x01. pose proof (d04 3 ltac:(lia)) as x03. pose proof (d14 2 ltac:(lia)) as x12. pose proof (d24 3 ltac:(lia)) as x23.
    change (c (3 + 1)) with (c 0) in *. simpl Nat.add in d01, d11, d21.
    assert (x01' : md 0 <> md 1) by (intros Q; apply x01 in Q; discriminate).
    assert (x03' : md 0 <> md 3) by (intros Q; apply x03 in Q; discriminate).
    assert (x12' : md 1 <> md 2) by (intros Q; apply x12 in Q; discriminate).
    assert (x23' : md 2 <> md 3) by (intros Q; apply x23 in Q; discriminate).
    clear d04 d14 d24 d34 x01 x03 x12 x23 f02 f12 f22 f32.
    refine (kid_hes_distinct (fun h => B (hp m') h) N (c 0) (c 1) (c 2) (c 3) (md 0) (md 1) (md 2) (md 3) (nv s) i k j _ _ _ _ Li Lk Lj d00 d01 d02 d03 d10 d11 d12 d13 d20 d21 d22 d23 d30 d31 d32 d33 x01' x03' x12' x23' EQ).
    + exact (conj f00 (conj f01 (conj f03 f04))).
    + exact (conj f10 (conj f11 (conj f13 f14))).
    + exact (conj f20 (conj f21 (conj f23 f24))).
    + exact (conj f30 (conj f31 (conj f33 f34))).
Qed.
