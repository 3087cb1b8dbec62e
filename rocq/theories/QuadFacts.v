(** * Facts about the linked half-edges (for C28-C30) *)
From Coq Require Import List Arith Bool Lia QArith.
From Verif Require Import Tree Forest Geom SpecGeom Dcel Quad SpecForest TreeFacts ForestFacts.
Import ListNotations.
Open Scope nat_scope.

Notation B s h := (hbase (he s h)).
Notation Hd s h := (hhead (he s h)).
Notation T s h := (twin (he s h)).
Notation K s h := (hkids (he s h)).
Notation P s h := (hpar (he s h)).
Notation R s h := (hper (he s h)).
Notation C s h := (hcell (he s h)).

(** local consistency of the half-edges *)
Record hinv (s : heap) : Prop := {
  i_v : forall h, h < nh s -> B s h < nv s /\ Hd s h < nv s;
  i_t : forall h t, h < nh s -> T s h = Some t ->
        t < nh s /\ T s t = Some h /\ t <> h /\ R s t = R s h /\
        (R s h = false -> B s t = Hd s h /\ Hd s t = B s h);
  i_k : forall h a b, h < nh s -> K s h = Some (a, b) ->
        a < nh s /\ b < nh s /\ P s a = Some (h, 0) /\ P s b = Some (h, 1) /\
        B s a = B s h /\ Hd s a = B s b /\ Hd s b = Hd s h /\ R s a = R s h /\ R s b = R s h /\
        peq (vx s (Hd s a)) (midpoint (vx s (B s h)) (vx s (Hd s h)));
  i_p : forall a h i, a < nh s -> P s a = Some (h, i) ->
        h < nh s /\ exists x y, K s h = Some (x, y) /\ ((i = 0 /\ a = x) \/ (i = 1 /\ a = y));
  i_kt : forall h a b, h < nh s -> K s h = Some (a, b) ->
        match T s h with
        | None => T s a = None /\ T s b = None
        | Some t => match K s t with
                    | None => T s a = None /\ T s b = None
                    | Some (c, d) => T s a = Some d /\ T s b = Some c
                    end
        end }.

(** [he_split] computes this *)
Definition tkids (s : heap) (h : nat) : option (nat * nat) :=
  match T s h with Some t => K s t | None => None end.
Definition shared (s : heap) (h : nat) : option nat :=
  match tkids s h with Some (t0, _) => if R s h then None else Some (Hd s t0) | None => None end.
Definition split_vm (s : heap) (h : nat) : nat := match shared s h with Some v => v | None => nv s end.
Definition split_he (s : heap) (h : nat) : nat -> hedge := fun g =>
  if g =? nh s then mkHe (B s h) (split_vm s h) None None None (option_map snd (tkids s h)) (Some (h, 0)) None (R s h)
  else if g =? S (nh s) then mkHe (split_vm s h) (Hd s h) None None None (option_map fst (tkids s h)) (Some (h, 1)) None (R s h)
  else if g =? h then w_kids (nh s, S (nh s)) (he s g)
  else match tkids s h with
       | Some (t0, t1) => if g =? t0 then w_twin (S (nh s)) (he s g)
                          else if g =? t1 then w_twin (nh s) (he s g) else he s g
       | None => he s g
       end.
(** two heaps with the same objects *)
Definition heq (s s' : heap) : Prop := nv s = nv s' /\ nh s = nh s' /\ (forall v, vx s v = vx s' v) /\ (forall g, he s g = he s' g).

Ltac eqbs := repeat match goal with
  | |- context [?a =? ?b] => destruct (Nat.eqb_spec a b)
  | H : context [?a =? ?b] |- _ => destruct (Nat.eqb_spec a b)
  end.

Lemma tkids_facts s h t0 t1 : hinv s -> h < nh s -> K s h = None -> tkids s h = Some (t0, t1) ->
  exists t, T s h = Some t /\ K s t = Some (t0, t1) /\ t < nh s /\ t <> h /\ T s t = Some h /\
    t0 < nh s /\ t1 < nh s /\ t0 <> t1 /\ t0 <> h /\ t1 <> h /\ T s t0 = None /\ T s t1 = None /\
    R s t0 = R s h /\ R s t1 = R s h /\ Hd s t0 = B s t1 /\
    (R s h = false -> B s t0 = Hd s h /\ Hd s t1 = B s h).
Proof.
  intros I L K0 E. unfold tkids in E. destruct (T s h) as [t|] eqn:Et; [|discriminate].
  destruct (i_t s I h t L Et) as [Lt [Tt [Nt [Rt Vt]]]].
  destruct (i_k s I t t0 t1 Lt E) as [L0 [L1 [P0 [P1 [B0 [B1 [H1 [R0 [R1 _]]]]]]]]].
  pose proof (i_kt s I t t0 t1 Lt E) as KT. rewrite Tt, K0 in KT. destruct KT as [T0 T1].
  exists t. repeat split; auto; try congruence.
  - rewrite B0. apply Vt; auto.
  - rewrite H1. apply Vt; auto.
Qed.

Lemma assign_twin_spec h t s : (R s h = true \/ (B s h = Hd s t /\ Hd s h = B s t)) ->
  exists s', assign_twin h t s = Ok s' /\ nh s' = nh s /\ nv s' = nv s /\ vx s' = vx s /\
    forall g, he s' g = if g =? h then w_twin t (he s g) else he s g.
Proof.
  intros A. unfold assign_twin.
  replace (R s h || ((B s h =? Hd s t) && (Hd s h =? B s t))) with true.
  - eexists. split; [reflexivity|]. repeat split; auto. intros g. cbn. unfold upd. destruct (Nat.eqb_spec g h); subst; auto.
  - destruct A as [->|[-> ->]]; [reflexivity|]. rewrite !Nat.eqb_refl, orb_true_r. reflexivity.
Qed.
Lemma new_he_spec b h par tw per s :
  match tw with Some t => t < nh s /\ (per = true \/ (b = Hd s t /\ h = B s t)) | None => True end ->
  exists s', new_he b h par tw per s = Ok s' /\ nh s' = S (nh s) /\ nv s' = nv s /\ vx s' = vx s /\
    forall g, he s' g = if g =? nh s then mkHe b h None None None tw par None per else he s g.
Proof.
  intros A. unfold new_he. destruct tw as [t|].
  - destruct A as [L A]. set (s1 := mkHeap _ _ _ _).
    assert (E : forall g, he s1 g = if g =? nh s then mkHe b h None None None None par None per else he s g) by reflexivity.
    destruct (assign_twin_spec (nh s) t s1) as [s' [E' [N1 [N2 [N3 G]]]]].
    + rewrite !E, Nat.eqb_refl. rewrite (proj2 (Nat.eqb_neq t (nh s))) by lia. cbn. tauto.
    + exists s'. repeat split; auto. intros g. rewrite G, E. destruct (Nat.eqb_spec g (nh s)); subst; auto.
  - eexists. split; [reflexivity|]. repeat split; auto.
Qed.

Lemma he_split_eq s h : hinv s -> h < nh s -> K s h = None ->
  exists s', he_split h s = Ok s' /\ nh s' = S (S (nh s)) /\ (forall g, he s' g = split_he s h g) /\
    match shared s h with
    | Some _ => nv s' = nv s /\ (forall v, vx s' v = vx s v)
    | None => nv s' = S (nv s) /\ (forall v, vx s' v = if v =? nv s then midpoint (vx s (B s h)) (vx s (Hd s h)) else vx s v)
    end.
Proof.
  intros I L K0. unfold he_split. fold (tkids s h). fold (shared s h). fold (split_vm s h).
  set (s1 := match shared s h with Some _ => s | None => _ end).
  assert (N1 : nh s1 = nh s) by (unfold s1; destruct (shared s h); auto).
  assert (E1 : forall g, he s1 g = he s g) by (unfold s1; destruct (shared s h); auto).
  assert (V1 : match shared s h with
    | Some _ => nv s1 = nv s /\ (forall v, vx s1 v = vx s v)
    | None => nv s1 = S (nv s) /\ (forall v, vx s1 v = if v =? nv s then midpoint (vx s (B s h)) (vx s (Hd s h)) else vx s v)
    end).
  { unfold s1. destruct (shared s h); auto. }
  clearbody s1. destruct (tkids s h) as [[t0 t1]|] eqn:ET; cbn [option_map fst snd].
  - destruct (tkids_facts s h t0 t1 I L K0 ET) as [t [Et [Kt [Lt [Nt [Tt [L0 [L1 [N01 [N0 [N1' [T0 [T1 [R0 [R1 [M VV]]]]]]]]]]]]]]]].
    assert (SV : R s h = false -> split_vm s h = Hd s t0).
    { intros Rf. unfold split_vm, shared. rewrite ET, Rf. reflexivity. }
    destruct (new_he_spec (B s h) (split_vm s h) (Some (h, 0)) (Some t1) (R s h) s1) as [s2 [E2 [M2 [Nv2 [X2 G2]]]]].
    { rewrite N1, E1. split; auto. destruct (R s h) eqn:Rh; auto. right. rewrite SV by auto. destruct (VV eq_refl); auto. }
    rewrite E2. cbn [bind]. rewrite N1 in M2, G2.
    destruct (new_he_spec (split_vm s h) (Hd s h) (Some (h, 1)) (Some t0) (R s h) s2) as [s3 [E3 [M3 [Nv3 [X3 G3]]]]].
    { rewrite M2, G2, (proj2 (Nat.eqb_neq t0 (nh s))), E1 by lia. split; [lia|]. destruct (R s h) eqn:Rh; auto.
      right. rewrite SV by auto. destruct (VV eq_refl); auto. }
    rewrite E3. cbn [bind]. rewrite M2 in M3, G3.
    destruct (assign_twin_spec t0 (S (nh s)) s3) as [s4 [E4 [M4 [Nv4 [X4 G4]]]]].
    { rewrite !G3, !G2, Nat.eqb_refl, (proj2 (Nat.eqb_neq t0 (S (nh s)))), (proj2 (Nat.eqb_neq t0 (nh s))), E1 by lia. cbn.
      rewrite R0. destruct (R s h) eqn:Rh; auto. right. rewrite SV by auto. destruct (VV eq_refl); auto. }
    rewrite E4. cbn [bind].
    destruct (assign_twin_spec t1 (nh s) s4) as [s5 [E5 [M5 [Nv5 [X5 G5]]]]].
    { rewrite !G4, !G3, !G2, Nat.eqb_refl.
      repeat rewrite (proj2 (Nat.eqb_neq _ _)) by lia. rewrite E1. cbn.
      rewrite R1. destruct (R s h) eqn:Rh; auto. right. rewrite SV by auto. destruct (VV eq_refl); auto. }
    rewrite E5. cbn [bind]. eexists. split; [reflexivity|]. cbn. split; [congruence|]. split.
    + intros g. unfold upd, split_he. rewrite ET. cbn. rewrite !G5, !G4, !G3, !G2, !E1.
      repeat match goal with |- context [?a =? ?b] => destruct (Nat.eqb_spec a b); subst; try lia end; cbn; auto; try congruence.
    + rewrite X5, X4, X3, X2, Nv5, Nv4, Nv3, Nv2. exact V1.
  - destruct (new_he_spec (B s h) (split_vm s h) (Some (h, 0)) None (R s h) s1 Logic.I) as [s2 [E2 [M2 [Nv2 [X2 G2]]]]].
    rewrite E2. cbn [bind]. rewrite N1 in M2, G2.
    destruct (new_he_spec (split_vm s h) (Hd s h) (Some (h, 1)) None (R s h) s2 Logic.I) as [s3 [E3 [M3 [Nv3 [X3 G3]]]]].
    rewrite E3. cbn [bind]. rewrite M2 in M3, G3.
    eexists. split; [reflexivity|]. cbn. split; [congruence|]. split.
    + intros g. unfold upd, split_he. rewrite ET. cbn. rewrite !G3, !G2, !E1.
      repeat match goal with |- context [?a =? ?b] => destruct (Nat.eqb_spec a b); subst; try lia end; cbn; auto; try congruence.
    + rewrite X3, X2, Nv3, Nv2. exact V1.
Qed.

(** what stays when objects are added *)
Record ext (s s' : heap) : Prop := {
  e_nh : nh s <= nh s'; e_nv : nv s <= nv s';
  e_vx : forall v, v < nv s -> vx s' v = vx s v;
  e_b : forall g, g < nh s -> B s' g = B s g; e_h : forall g, g < nh s -> Hd s' g = Hd s g;
  e_p : forall g, g < nh s -> P s' g = P s g; e_r : forall g, g < nh s -> R s' g = R s g;
  e_t : forall g t, g < nh s -> T s g = Some t -> T s' g = Some t;
  e_k : forall g k, g < nh s -> K s g = Some k -> K s' g = Some k;
  e_tn : forall g, g < nh s -> P s g = None -> T s' g = T s g }.
Lemma ext_refl s : ext s s.
Proof. constructor; auto. Qed.
Lemma ext_trans s1 s2 s3 : ext s1 s2 -> ext s2 s3 -> ext s1 s3.
Proof.
  intros [a1 a2 a3 a4 a5 a6 a7 a8 a9 a10] [b1 b2 b3 b4 b5 b6 b7 b8 b9 b10]. constructor; try lia; intros.
  - rewrite b3 by lia; auto.
  - rewrite b4 by lia; auto.
  - rewrite b5 by lia; auto.
  - rewrite b6 by lia; auto.
  - rewrite b7 by lia; auto.
  - apply b8; [lia|auto].
  - apply b9; [lia|auto].
  - rewrite b10; auto; [lia|]. rewrite a6; auto.
Qed.

Lemma split_old s h g : g < nh s ->
  let e := split_he s h g in
  hbase e = B s g /\ hhead e = Hd s g /\ hcell e = C s g /\ hpar e = P s g /\ hper e = R s g /\
  prev e = prev (he s g) /\ next e = next (he s g) /\
  hkids e = (if g =? h then Some (nh s, S (nh s)) else K s g) /\
  (twin e = T s g \/ exists t0 t1, tkids s h = Some (t0, t1) /\ ((g = t0 /\ twin e = Some (S (nh s))) \/ (g = t1 /\ twin e = Some (nh s)))).
Proof.
  intros L e. unfold e, split_he. rewrite (proj2 (Nat.eqb_neq g (nh s))), (proj2 (Nat.eqb_neq g (S (nh s)))) by lia.
  destruct (Nat.eqb_spec g h); [subst; cbn; repeat split; auto|].
  destruct (tkids s h) as [[t0 t1]|]; [|repeat split; auto].
  destruct (Nat.eqb_spec g t0); [subst; cbn; repeat split; auto; right; exists t0, t1; auto|].
  destruct (Nat.eqb_spec g t1); [subst; cbn; repeat split; auto; right; exists t0, t1; auto|]. repeat split; auto.
Qed.
Lemma split_twin_old s h g : g < nh s -> (forall t0 t1, tkids s h = Some (t0, t1) -> g <> t0 /\ g <> t1) ->
  twin (split_he s h g) = T s g.
Proof.
  intros L N. destruct (split_old s h g L) as [_ [_ [_ [_ [_ [_ [_ [_ [E|[t0 [t1 [E [[-> _]|[-> _]]]]]]]]]]]]]]; auto.
  - destruct (N _ _ E); congruence.
  - destruct (N _ _ E); congruence.
Qed.
Lemma peq_mid_sym a b : peq (midpoint a b) (midpoint b a).
Proof. split; cbn; ring. Qed.
Lemma peq_rfl p : peq p p. Proof. split; reflexivity. Qed.
Lemma peq_tr a b c : peq a b -> peq b c -> peq a c.
Proof. intros [A1 A2] [B1 B2]; split; etransitivity; eauto. Qed.

Lemma he_split_inv s h : hinv s -> h < nh s -> K s h = None ->
  exists s', he_split h s = Ok s' /\ hinv s' /\ ext s s' /\ nh s' = S (S (nh s)) /\
    (forall g, he s' g = split_he s h g) /\ K s' h = Some (nh s, S (nh s)).
Proof.
  intros I L K0. destruct (he_split_eq s h I L K0) as [s' [E [N [G V]]]].
  assert (Nv : nv s <= nv s') by (destruct (shared s h); destruct V; lia).
  assert (Vx : forall v, v < nv s -> vx s' v = vx s v).
  { intros v Lv. destruct (shared s h); destruct V as [_ V]; rewrite V; auto. rewrite (proj2 (Nat.eqb_neq v (nv s))) by lia. auto. }
  assert (Vm : split_vm s h < nv s' /\ peq (vx s' (split_vm s h)) (midpoint (vx s (B s h)) (vx s (Hd s h)))).
  { unfold split_vm. unfold shared in *. destruct (tkids s h) as [[t0 t1]|] eqn:ET.
    - destruct (R s h) eqn:Rh; destruct V as [V1 V2].
      + split; [lia|]. rewrite V2, Nat.eqb_refl. apply peq_rfl.
      + destruct (tkids_facts s h t0 t1 I L K0 ET) as [t [Et [Kt [Lt [Nt [Tt [L0 [L1 [N01 [N0 [N1' [T0 [T1 [R0 [R1 [M VV]]]]]]]]]]]]]]]].
        split; [rewrite V1; apply (i_v s I); auto|]. rewrite V2.
        destruct (i_k s I t t0 t1 Lt Kt) as [_ [_ [_ [_ [_ [_ [_ [_ [_ Q]]]]]]]]].
        destruct (i_t s I h t L Et) as [_ [_ [_ [_ VT]]]]. destruct (VT Rh) as [-> ->] in Q.
        eapply peq_tr; [exact Q|apply peq_mid_sym].
    - destruct V as [V1 V2]. split; [lia|]. rewrite V2, Nat.eqb_refl. apply peq_rfl. }
  destruct Vm as [Lvm Qvm].
  assert (O : forall g, g < nh s -> B s' g = B s g /\ Hd s' g = Hd s g /\ P s' g = P s g /\ R s' g = R s g /\
              K s' g = if g =? h then Some (nh s, S (nh s)) else K s g).
  { intros g Lg. rewrite G. destruct (split_old s h g Lg) as [a1 [a2 [a3 [a4 [a5 [a6 [a7 [a8 _]]]]]]]]. auto. }
  assert (C0 : he s' (nh s) = mkHe (B s h) (split_vm s h) None None None (option_map snd (tkids s h)) (Some (h, 0)) None (R s h)).
  { rewrite G. unfold split_he. rewrite Nat.eqb_refl. reflexivity. }
  assert (C1 : he s' (S (nh s)) = mkHe (split_vm s h) (Hd s h) None None None (option_map fst (tkids s h)) (Some (h, 1)) None (R s h)).
  { rewrite G. unfold split_he. rewrite (proj2 (Nat.eqb_neq _ _)) by lia. rewrite Nat.eqb_refl. reflexivity. }
  assert (TO : forall g, g < nh s -> (forall t0 t1, tkids s h = Some (t0, t1) -> g <> t0 /\ g <> t1) -> T s' g = T s g).
  { intros g Lg Hg. rewrite G. apply split_twin_old; auto. }
  assert (T0' : forall t0 t1, tkids s h = Some (t0, t1) -> T s' t0 = Some (S (nh s)) /\ T s' t1 = Some (nh s)).
  { intros t0 t1 ET. destruct (tkids_facts s h t0 t1 I L K0 ET) as [t [Et [Kt [Lt [Nt [Tt [L0 [L1 [N01 [N0 [N1' _]]]]]]]]]]].
    rewrite !G. unfold split_he. rewrite ET. repeat rewrite ?Nat.eqb_refl, ?(proj2 (Nat.eqb_neq _ _)) by lia. cbn. auto. }
  assert (TS : forall g t, g < nh s -> T s g = Some t -> T s' g = Some t).
  { intros g t Lg Tg. rewrite TO; auto. intros t0 t1 ET.
    destruct (tkids_facts s h t0 t1 I L K0 ET) as [_ [_ [_ [_ [_ [_ [_ [_ [_ [_ [_ [T0 [T1 _]]]]]]]]]]]]]. split; congruence. }
  assert (X : ext s s').
  { constructor; auto; try lia; intros g; try (intros Lg; apply O; auto).
    - intros k Lg Kg. destruct (O g Lg) as [_ [_ [_ [_ Eq]]]]. rewrite Eq. destruct (Nat.eqb_spec g h); subst; congruence.
    - intros Lg Pg. apply TO; auto. intros t0 t1 ET.
      destruct (tkids_facts s h t0 t1 I L K0 ET) as [u [_ [Ku [Lu _]]]].
      destruct (i_k s I u t0 t1 Lu Ku) as [_ [_ [P0 [P1 _]]]]. split; congruence. }
  exists s'. split; auto. split; [|split; [auto|]; split; [auto|]; split; [auto|]; destruct (O h L) as [_ [_ [_ [_ Eq]]]]; rewrite Eq, Nat.eqb_refl; auto].
  assert (Cases : forall g, g < nh s' -> g < nh s \/ g = nh s \/ g = S (nh s)) by (intros; lia).
  constructor.
  - intros g Lg. destruct (Cases g Lg) as [Lo|[->| ->]].
    + destruct (O g Lo) as [-> [-> _]]. destruct (i_v s I g Lo). lia.
    + rewrite C0; cbn. destruct (i_v s I h L). lia.
    + rewrite C1; cbn. destruct (i_v s I h L). lia.
  - intros g t Lg Tg. destruct (Cases g Lg) as [Lo|[->| ->]].
    + assert (D : T s g = Some t \/ T s g = None) .
      { destruct (T s g) as [t'|] eqn:E'; auto. left. rewrite (TS g t' Lo E') in Tg. congruence. }
      destruct D as [D|D].
      * destruct (i_t s I g t Lo D) as [Lt [Tt [Nt [Rt Vt]]]]. destruct (O g Lo) as [-> [-> [_ [-> _]]]]. destruct (O t Lt) as [-> [-> [_ [-> _]]]].
        repeat split; auto; try lia; tauto.
      * rewrite G in Tg. destruct (split_old s h g Lo) as [_ [_ [_ [_ [_ [_ [_ [_ [Q|[t0 [t1 [ET Q]]]]]]]]]]]]; [congruence|].
        destruct (tkids_facts s h t0 t1 I L K0 ET) as [u [Et [Kt [Lt [Nt [Tt [L0 [L1 [N01 [N0 [N1' [T0 [T1 [R0 [R1 [M VV]]]]]]]]]]]]]]]].
        assert (SV : R s h = false -> split_vm s h = Hd s t0) by (intros Rf; unfold split_vm, shared; rewrite ET, Rf; reflexivity).
        destruct Q as [[-> Q]|[-> Q]]; rewrite Q in Tg; injection Tg as <-.
        -- rewrite C1. cbn. rewrite ET. cbn. destruct (O t0 Lo) as [-> [-> [_ [-> _]]]]. repeat split; auto; try lia.
           ++ apply SV; congruence.
           ++ symmetry; apply VV; congruence.
        -- rewrite C0. cbn. rewrite ET. cbn. destruct (O t1 Lo) as [-> [-> [_ [-> _]]]]. repeat split; auto; try lia.
           ++ symmetry; apply VV; congruence.
           ++ rewrite SV by congruence. auto.
    + rewrite C0 in Tg. cbn in Tg. destruct (tkids s h) as [[t0 t1]|] eqn:ET; [|discriminate]. injection Tg as <-.
      destruct (tkids_facts s h t0 t1 I L K0 ET) as [u [Et [Kt [Lt [Nt [Tt [L0 [L1 [N01 [N0 [N1' [T0 [T1 [R0 [R1 [M VV]]]]]]]]]]]]]]]].
      destruct (T0' _ _ eq_refl) as [Q0 Q1]. rewrite Q1, C0. cbn. destruct (O t1 L1) as [-> [-> [_ [-> _]]]].
      assert (SV : R s h = false -> split_vm s h = Hd s t0) by (intros Rf; unfold split_vm, shared; rewrite ET, Rf; reflexivity).
      split; [lia|]. split; [auto|]. split; [lia|]. split; [auto|]. intros Rf. rewrite SV by auto. destruct (VV Rf); auto.
    + rewrite C1 in Tg. cbn in Tg. destruct (tkids s h) as [[t0 t1]|] eqn:ET; [|discriminate]. injection Tg as <-.
      destruct (tkids_facts s h t0 t1 I L K0 ET) as [u [Et [Kt [Lt [Nt [Tt [L0 [L1 [N01 [N0 [N1' [T0 [T1 [R0 [R1 [M VV]]]]]]]]]]]]]]]].
      destruct (T0' _ _ eq_refl) as [Q0 Q1]. rewrite Q0, C1. cbn. destruct (O t0 L0) as [-> [-> [_ [-> _]]]].
      assert (SV : R s h = false -> split_vm s h = Hd s t0) by (intros Rf; unfold split_vm, shared; rewrite ET, Rf; reflexivity).
      split; [lia|]. split; [auto|]. split; [lia|]. split; [auto|]. intros Rf. rewrite SV by auto. destruct (VV Rf); auto.
  - intros g a b Lg Kg. destruct (Cases g Lg) as [Lo|[->| ->]].
    + destruct (O g Lo) as [Bg [Hg [Pg [Rg Kg']]]]. rewrite Kg' in Kg. destruct (Nat.eqb_spec g h) as [->|Ng].
      * injection Kg as <- <-. rewrite Bg, Hg, Rg, C0, C1. cbn.
        assert (Q : peq (vx s' (split_vm s h)) (midpoint (vx s' (B s h)) (vx s' (Hd s h)))).
        { destruct (i_v s I h L). rewrite (Vx (B s h)), (Vx (Hd s h)) by auto. exact Qvm. }
        split; [lia|]. split; [lia|]. repeat split; auto; apply Q.
      * destruct (i_k s I g a b Lo Kg) as [La [Lb [Pa [Pb [Ba [Ha [Hb [Ra [Rb Q]]]]]]]]].
        destruct (O a La) as [-> [-> [-> [-> _]]]]. destruct (O b Lb) as [-> [-> [-> [-> _]]]]. rewrite Bg, Hg, Rg.
        destruct (i_v s I g Lo), (i_v s I a La). rewrite (Vx (B s g)), (Vx (Hd s g)), (Vx (Hd s a)) by auto.
        split; [lia|]. split; [lia|]. repeat split; auto; apply Q.
    + rewrite C0 in Kg. discriminate.
    + rewrite C1 in Kg. discriminate.
  - intros a g i La Pa. destruct (Cases a La) as [Lo|[->| ->]].
    + destruct (O a Lo) as [_ [_ [Pa' _]]]. rewrite Pa' in Pa. destruct (i_p s I a g i Lo Pa) as [Lg [x [y [Kg Q]]]].
      split; [lia|]. exists x, y. destruct (O g Lg) as [_ [_ [_ [_ Kg']]]]. rewrite Kg'.
      destruct (Nat.eqb_spec g h); [subst; congruence|]. auto.
    + rewrite C0 in Pa. cbn in Pa. injection Pa as <- <-. split; [lia|]. destruct (O h L) as [_ [_ [_ [_ ->]]]].
      rewrite Nat.eqb_refl. exists (nh s), (S (nh s)). auto.
    + rewrite C1 in Pa. cbn in Pa. injection Pa as <- <-. split; [lia|]. destruct (O h L) as [_ [_ [_ [_ ->]]]].
      rewrite Nat.eqb_refl. exists (nh s), (S (nh s)). auto.
  - intros g a b Lg Kg. destruct (Cases g Lg) as [Lo|[->| ->]]; [|rewrite C0 in Kg; discriminate|rewrite C1 in Kg; discriminate].
    destruct (O g Lo) as [Bg [Hg [Pg [Rg Kg']]]]. rewrite Kg' in Kg. destruct (Nat.eqb_spec g h) as [->|Ng].
    + injection Kg as <- <-. rewrite C0, C1. cbn. unfold tkids. destruct (T s h) as [t|] eqn:Et.
      * rewrite (TS h t L Et). destruct (i_t s I h t L Et) as [Lt [Tt [Nt _]]]. destruct (O t Lt) as [_ [_ [_ [_ ->]]]].
        rewrite (proj2 (Nat.eqb_neq t h)) by auto. destruct (K s t) as [[c d]|]; auto.
      * rewrite TO; auto.
        -- rewrite Et. auto.
        -- intros t0 t1 ET. unfold tkids in ET. rewrite Et in ET. discriminate.
    + pose proof (i_kt s I g a b Lo Kg) as Q.
      destruct (i_k s I g a b Lo Kg) as [La [Lb [Pa [Pb _]]]].
      destruct (T s g) as [t|] eqn:Et.
      * rewrite (TS g t Lo Et). destruct (i_t s I g t Lo Et) as [Lt [Tt [Nt _]]]. destruct (O t Lt) as [_ [_ [_ [_ ->]]]].
        destruct (Nat.eqb_spec t h) as [->|Nth].
        -- rewrite K0 in Q. assert (ET : tkids s h = Some (a, b)) by (unfold tkids; rewrite Tt; auto).
           destruct (T0' _ _ ET) as [Q0 Q1]. auto.
        -- destruct (K s t) as [[c d]|].
           ++ destruct Q as [Q1 Q2]. split; apply TS; auto.
           ++ assert (NE : forall t0 t1, tkids s h = Some (t0, t1) -> (a <> t0 /\ a <> t1) /\ (b <> t0 /\ b <> t1)).
              { intros t0 t1 ET. destruct (tkids_facts s h t0 t1 I L K0 ET) as [u [Eu [Ku [Lu [Nu [Tu _]]]]]].
                destruct (i_k s I u t0 t1 Lu Ku) as [_ [_ [P0 [P1 _]]]].
                assert (u <> g) by (intros ->; congruence). repeat split; intros ->; congruence. }
              rewrite !TO; auto; intros t0 t1 ET; apply (NE _ _ ET).
      * assert (NE : forall t0 t1, tkids s h = Some (t0, t1) -> (a <> t0 /\ a <> t1) /\ (b <> t0 /\ b <> t1)).
        { intros t0 t1 ET. destruct (tkids_facts s h t0 t1 I L K0 ET) as [u [Eu [Ku [Lu [Nu [Tu _]]]]]].
          destruct (i_k s I u t0 t1 Lu Ku) as [_ [_ [P0 [P1 _]]]].
          assert (u <> g) by (intros ->; congruence). repeat split; intros ->; congruence. }
        assert (QQ : T s' a = None /\ T s' b = None).
        { rewrite !TO; auto; intros t0 t1 ET; apply (NE _ _ ET). }
        rewrite G. destruct (split_old s h g Lo) as [_ [_ [_ [_ [_ [_ [_ [_ [W|[t0 [t1 [ET [[_ W]|[_ W]]]]]]]]]]]]]]; rewrite W.
        -- rewrite Et. exact QQ.
        -- rewrite C1. cbn. exact QQ.
        -- rewrite C0. cbn. exact QQ.
Qed.

(** heaps that differ only in the links to cells and neighbours in a cell *)
Record agree (s s' : heap) : Prop := {
  a_nh : nh s' = nh s; a_nv : nv s' = nv s; a_vx : vx s' = vx s;
  a_b : forall g, B s' g = B s g; a_h : forall g, Hd s' g = Hd s g; a_t : forall g, T s' g = T s g;
  a_k : forall g, K s' g = K s g; a_p : forall g, P s' g = P s g; a_r : forall g, R s' g = R s g }.
Lemma agree_refl s : agree s s. Proof. constructor; auto. Qed.
Lemma agree_trans s1 s2 s3 : agree s1 s2 -> agree s2 s3 -> agree s1 s3.
Proof.
  intros [a1 a2 a3 a4 a5 a6 a7 a8 a9] [b1 b2 b3 b4 b5 b6 b7 b8 b9]. constructor; intros; congruence.
Qed.
Lemma agree_hinv s s' : agree s s' -> hinv s -> hinv s'.
Proof.
  intros [a1 a2 a3 a4 a5 a6 a7 a8 a9] [i1 i2 i3 i4 i5].
  constructor; rewrite ?a1, ?a2, ?a3.
  - intros h L. rewrite a4, a5. auto.
  - intros h t L E. rewrite a6 in E. rewrite !a6, !a9, !a4, !a5. auto.
  - intros h a b L E. rewrite a7 in E. rewrite !a8, !a4, !a5, !a9. auto.
  - intros a h i L E. rewrite a8 in E. rewrite a7. auto.
  - intros h a b L E. rewrite a7 in E. rewrite !a6. specialize (i5 _ _ _ L E). destruct (T s h) as [t|]; auto. rewrite a7. auto.
Qed.
Lemma agree_ext s s' : agree s s' -> ext s s'.
Proof. intros [a1 a2 a3 a4 a5 a6 a7 a8 a9]. constructor; intros; rewrite ?a1, ?a2, ?a3; try lia; auto; try congruence. Qed.
Lemma agree_mod s h g : (forall e, hbase (g e) = hbase e /\ hhead (g e) = hhead e /\ twin (g e) = twin e /\
  hkids (g e) = hkids e /\ hpar (g e) = hpar e /\ hper (g e) = hper e) -> agree s (mod_he h g s).
Proof.
  intros A. constructor; cbn; auto; intros x; unfold upd; destruct (Nat.eqb_spec x h); subst; auto; apply A.
Qed.
Lemma agree_link c n s s' : link c n s = Ok s' -> agree s s'.
Proof.
  unfold link. destruct (_ || _); [|discriminate]. intros E. injection E as <-.
  eapply agree_trans; [apply (agree_mod s c (w_next n)); intros; cbn; auto 10|apply agree_mod; intros; cbn; auto 10].
Qed.
Lemma agree_cell_init p hs s s' : cell_init p hs s = Ok s' -> agree s s'.
Proof.
  unfold cell_init. intros E.
  assert (A1 : forall l s, agree s (fold_left (fun s h => mod_he h (w_cell p) s) l s)).
  { induction l as [|h l IH]; intros s0; cbn; [apply agree_refl|]. eapply agree_trans; [|apply IH]. apply agree_mod. intros; cbn; auto 10. }
  assert (A2 : forall l s s', fold_res (fun s i => link (nth i hs 0) (nxt_of hs 0 i) s) l s = Ok s' -> agree s s').
  { induction l as [|i l IH]; intros s0 s1; cbn; [intros Q; injection Q as <-; apply agree_refl|].
    destruct (link _ _ s0) as [s2|] eqn:EL; cbn; [|discriminate]. intros Q. eapply agree_trans; [eapply agree_link; eauto|apply IH; auto]. }
  destruct (fold_res _ _ _) as [s2|] eqn:EF in E; cbn in E; [|discriminate].
  destruct (_ && _); [|discriminate]. injection E as <-. eapply agree_trans; [apply A1|eapply A2; eauto].
Qed.

Lemma new_vertex_inv x s : hinv s -> hinv (new_vertex x s) /\ ext s (new_vertex x s) /\ (forall g, he (new_vertex x s) g = he s g).
Proof.
  intros [i1 i2 i3 i4 i5]. split; [|split; [|auto]].
  - constructor; cbn; auto.
    + intros h L. destruct (i1 h L). lia.
    + intros h a b L E. destruct (i3 h a b L E) as [La [Lb [Pa [Pb [Ba [Ha [Hb [Ra [Rb Q]]]]]]]]].
      destruct (i1 h L), (i1 a La). unfold upd. rewrite !(proj2 (Nat.eqb_neq _ (nv s))) by lia.
      split; [auto|]. split; [auto|]. repeat split; auto; apply Q.
  - constructor; cbn; auto. intros v L. unfold upd. rewrite (proj2 (Nat.eqb_neq v (nv s))) by lia. auto.
Qed.
(** the interior pair *)
Lemma interior_inv x y s : hinv s -> x < nv s -> y < nv s ->
  exists s2 s3, new_he x y None None false s = Ok s2 /\ make_twin (nh s) s2 = Ok s3 /\ hinv s3 /\ ext s s3 /\
    nh s3 = S (S (nh s)) /\ nv s3 = nv s /\
    forall g, he s3 g = if g =? nh s then mkHe x y None None None (Some (S (nh s))) None None false
                        else if g =? S (nh s) then mkHe y x None None None (Some (nh s)) None None false
                        else he s g.
Proof.
  intros I Lx Ly. destruct (new_he_spec x y None None false s Logic.I) as [s2 [E2 [M2 [Nv2 [X2 G2]]]]].
  unfold make_twin. assert (F : he s2 (nh s) = mkHe x y None None None None None None false) by (rewrite G2, Nat.eqb_refl; auto).
  destruct (new_he_spec y x None None false s2 Logic.I) as [s3 [E3 [M3 [Nv3 [X3 G3]]]]].
  rewrite M2 in M3, G3.
  assert (F3 : he s3 (nh s) = mkHe x y None None None None None None false) by (rewrite G3, (proj2 (Nat.eqb_neq _ _)) by lia; auto).
  assert (F3' : he s3 (S (nh s)) = mkHe y x None None None None None None false) by (rewrite G3, Nat.eqb_refl; auto).
  destruct (assign_twin_spec (nh s) (S (nh s)) s3) as [s4 [E4 [M4 [Nv4 [X4 G4]]]]].
  { right. rewrite F3, F3'. auto. }
  destruct (assign_twin_spec (S (nh s)) (nh s) s4) as [s5 [E5 [M5 [Nv5 [X5 G5]]]]].
  { right. rewrite !G4. rewrite Nat.eqb_refl, (proj2 (Nat.eqb_neq _ _)) by lia. rewrite F3, F3'. auto. }
  exists s2, s5. rewrite F. cbn [hper hpar hhead hbase]. rewrite M2, E3. cbn [bind]. rewrite E4. cbn [bind]. rewrite E5.
  assert (G : forall g, he s5 g = if g =? nh s then mkHe x y None None None (Some (S (nh s))) None None false
                        else if g =? S (nh s) then mkHe y x None None None (Some (nh s)) None None false
                        else he s g).
  { intros g. rewrite G5, G4, G3, G2. eqbs; subst; try lia; auto. }
  assert (N5 : nh s5 = S (S (nh s))) by congruence.
  assert (NV : nv s5 = nv s) by congruence. assert (VX : vx s5 = vx s) by congruence.
  assert (O : forall g, g < nh s -> he s5 g = he s g).
  { intros g Lg. rewrite G, !(proj2 (Nat.eqb_neq g _)) by lia. auto. }
  assert (U : he s5 (nh s) = mkHe x y None None None (Some (S (nh s))) None None false) by (rewrite G, Nat.eqb_refl; auto).
  assert (D : he s5 (S (nh s)) = mkHe y x None None None (Some (nh s)) None None false).
  { rewrite G, (proj2 (Nat.eqb_neq _ _)), Nat.eqb_refl by lia; auto. }
  assert (Cases : forall g, g < nh s5 -> g < nh s \/ g = nh s \/ g = S (nh s)) by (intros; lia).
  split; auto. split; auto. split; [|split; [|auto]].
  - destruct I as [i1 i2 i3 i4 i5]. constructor; rewrite ?NV, ?VX.
    + intros g Lg. destruct (Cases g Lg) as [Lo|[->| ->]]; [rewrite O by auto; auto|rewrite U; auto|rewrite D; auto].
    + intros g t Lg Tg. destruct (Cases g Lg) as [Lo|[->| ->]].
      * rewrite O in Tg by auto. destruct (i2 g t Lo Tg) as [Lt [Tt [Nt [Rt Vt]]]]. rewrite !O by auto. repeat split; auto; try lia; tauto.
      * rewrite U in Tg. cbn in Tg. injection Tg as <-. rewrite U, D. cbn. repeat split; auto; lia.
      * rewrite D in Tg. cbn in Tg. injection Tg as <-. rewrite U, D. cbn. repeat split; auto; lia.
    + intros g a b Lg Kg. destruct (Cases g Lg) as [Lo|[->| ->]]; [|rewrite U in Kg; discriminate|rewrite D in Kg; discriminate].
      rewrite O in Kg by auto. pose proof (i3 g a b Lo Kg) as Q. destruct Q as [La [Lb Q]].
      rewrite (O g), (O a), (O b) by auto. split; [lia|]. split; [lia|]. exact Q.
    + intros a g i La Pa. destruct (Cases a La) as [Lo|[->| ->]]; [|rewrite U in Pa; discriminate|rewrite D in Pa; discriminate].
      rewrite O in Pa by auto. destruct (i4 a g i Lo Pa) as [Lg Q]. rewrite O by auto. split; [lia|auto].
    + intros g a b Lg Kg. destruct (Cases g Lg) as [Lo|[->| ->]]; [|rewrite U in Kg; discriminate|rewrite D in Kg; discriminate].
      rewrite O in Kg by auto. destruct (i3 g a b Lo Kg) as [La [Lb _]]. rewrite (O g), (O a), (O b) by auto.
      pose proof (i5 g a b Lo Kg) as Q. destruct (T s g) as [t|] eqn:Et; auto. destruct (i2 g t Lo Et) as [Lt _]. rewrite O by auto. auto.
  - constructor; try lia; try (intros; rewrite O by auto; auto). intros v _. rewrite VX. auto.
Qed.

(** one round of the first loop of QuadCell.split *)
Definition side_step (vm : nat) (acc : heap * list (nat * nat)) (h : nat) : res (heap * list (nat * nat)) :=
    let '(s, ud) := acc in
    bind (match hkids (he s h) with Some _ => Ok s | None => he_split h s end) (fun s1 =>
    match hkids (he s1 h) with
    | None => Err AttributeError
    | Some (c0, _) =>
      let up := nh s1 in
      bind (new_he (hhead (he s1 c0)) vm None None false s1) (fun s2 =>
      bind (make_twin up s2) (fun s3 => Ok (s3, ud ++ [(up, S up)])))
    end).
Lemma split_sides_eq vm hs s : split_sides vm hs s = fold_res (side_step vm) hs (s, []).
Proof. reflexivity. Qed.
(** links to the cell and inside the cell are unchanged for old half-edges *)
Definition keeps_links (s s' : heap) : Prop := forall g, g < nh s ->
  C s' g = C s g /\ prev (he s' g) = prev (he s g) /\ next (he s' g) = next (he s g).
Lemma side_step_spec vm s ud h : hinv s -> h < nh s -> vm < nv s ->
  exists s' a b u, side_step vm (s, ud) h = Ok (s', ud ++ [(u, S u)]) /\ hinv s' /\ ext s s' /\ keeps_links s s' /\
    K s' h = Some (a, b) /\ nh s <= u /\ nh s' = S (S u) /\
    he s' u = mkHe (Hd s' a) vm None None None (Some (S u)) None None false /\
    he s' (S u) = mkHe vm (Hd s' a) None None None (Some u) None None false /\
    (forall g, g < nh s -> g <> h -> K s' g = K s g) /\
    (K s h = None -> a = nh s /\ b = S (nh s) /\ u = S (S (nh s)) /\ K s' a = None /\ K s' b = None).
Proof.
  intros I L Lv. unfold side_step.
  destruct (K s h) as [[a b]|] eqn:EK.
  - cbn [bind]. rewrite EK. destruct (i_k s I h a b L EK) as [La [Lb [Pa [Pb [Ba [Ha [Hb _]]]]]]].
    destruct (interior_inv (Hd s a) vm s I (proj2 (i_v s I a La)) Lv) as [s2 [s3 [E2 [E3 [I3 [X3 [N3 [V3 G3]]]]]]]].
    rewrite E2. cbn [bind]. rewrite E3. cbn [bind]. exists s3, a, b, (nh s). split; [reflexivity|].
    assert (O : forall g, g < nh s -> he s3 g = he s g).
    { intros g Lg. rewrite G3, !(proj2 (Nat.eqb_neq g _)) by lia. auto. }
    split; auto. split; auto. split; [intros g Lg; rewrite O by auto; auto|].
    rewrite (O h L). split; auto. split; auto. split; auto. rewrite (O a La). split; [rewrite G3, Nat.eqb_refl; auto|].
    split; [rewrite G3, (proj2 (Nat.eqb_neq _ _)), Nat.eqb_refl by lia; auto|].
    split; [intros g Lg _; rewrite O by auto; auto|discriminate].
  - destruct (he_split_inv s h I L EK) as [s1 [E1 [I1 [X1 [N1 [G1 K1]]]]]]. rewrite E1. cbn [bind]. rewrite K1.
    assert (L0 : nh s < nh s1) by lia.
    destruct (interior_inv (Hd s1 (nh s)) vm s1 I1 (proj2 (i_v s1 I1 _ L0)) ltac:(pose proof (e_nv _ _ X1); lia)) as [s2 [s3 [E2 [E3 [I3 [X3 [N3 [V3 G3]]]]]]]].
    rewrite E2. cbn [bind]. rewrite E3. cbn [bind]. exists s3, (nh s), (S (nh s)), (nh s1). split; [reflexivity|].
    assert (O : forall g, g < nh s1 -> he s3 g = he s1 g).
    { intros g Lg. rewrite G3, !(proj2 (Nat.eqb_neq g _)) by lia. auto. }
    split; auto. split; [eapply ext_trans; eauto|]. split.
    { intros g Lg. rewrite O, G1 by lia. destruct (split_old s h g Lg) as [a1 [a2 [a3 [a4 [a5 [a6 [a7 [a8 _]]]]]]]]. auto. }
    rewrite (O h) by lia. split; auto. split; [lia|]. split; auto. rewrite (O (nh s)) by lia.
    split; [rewrite G3, Nat.eqb_refl; auto|]. split; [rewrite G3, (proj2 (Nat.eqb_neq _ _)), Nat.eqb_refl by lia; auto|]. split.
    { intros g Lg Ng. rewrite O, G1 by lia. destruct (split_old s h g Lg) as [a1 [a2 [a3 [a4 [a5 [a6 [a7 [a8 _]]]]]]]]. rewrite a8.
      rewrite (proj2 (Nat.eqb_neq g h)) by auto. auto. }
    intros _. repeat split; auto.
    + rewrite G1. unfold split_he. rewrite Nat.eqb_refl. auto.
    + rewrite O, G1 by lia. unfold split_he. rewrite (proj2 (Nat.eqb_neq _ _)), Nat.eqb_refl by lia. auto.
Qed.

(** Cell.__init__ for four different half-edges that join up *)
Definition set_links (p : path) (pr nx : nat) (e : hedge) : hedge := w_prev pr (w_next nx (w_cell p e)).
Lemma cell_init4 p a b c d s : NoDup [a; b; c; d] ->
  Hd s a = B s b -> Hd s b = B s c -> Hd s c = B s d -> Hd s d = B s a ->
  match cell_init p [a; b; c; d] s with
  | Ok s' => Qltb 0 (he_area s [a; b; c; d]) = true /\ agree s s' /\
      (forall g, ~ In g [a; b; c; d] -> he s' g = he s g) /\
      he s' a = set_links p d b (he s a) /\ he s' b = set_links p a c (he s b) /\
      he s' c = set_links p b d (he s c) /\ he s' d = set_links p c a (he s d)
  | Err e => e = AssertionError /\ Qltb 0 (he_area s [a; b; c; d]) = false
  end.
Proof.
  intros ND J1 J2 J3 J4.
  assert (D : a <> b /\ a <> c /\ a <> d /\ b <> c /\ b <> d /\ c <> d).
  { inversion ND as [|? ? N1 ND1]; subst. inversion ND1 as [|? ? N2 ND2]; subst. inversion ND2 as [|? ? N3 ND3]; subst.
    simpl in *. repeat split; intros ->; tauto. }
  destruct D as [D1 [D2 [D3 [D4 [D5 D6]]]]].
  destruct (cell_init p [a; b; c; d] s) as [s'|er] eqn:E.
  - pose proof (agree_cell_init _ _ _ _ E) as A. revert E. unfold cell_init.
    set (s1 := fold_left _ _ s). cbn [length seq fold_res].
    assert (G1 : forall g, he s1 g = if (g =? d) || (g =? c) || (g =? b) || (g =? a) then w_cell p (he s g) else he s g).
    { intros g. unfold s1. cbn. unfold upd. eqbs; subst; try congruence; auto. }
    clearbody s1. unfold nxt_of. cbn [length Nat.add Nat.modulo Nat.divmod fst snd Nat.sub nth].
    unfold link at 1. destruct (_ || _); [|discriminate]. cbn [bind].
    unfold link at 1. destruct (_ || _); [|discriminate]. cbn [bind].
    unfold link at 1. destruct (_ || _); [|discriminate]. cbn [bind].
    unfold link at 1. destruct (_ || _); [|discriminate]. cbn [bind].
    destruct (_ && _) eqn:EA; [|discriminate]. intros E. injection E as <-.
    assert (AR : forall s1 s2, agree s1 s2 -> he_area s2 [a; b; c; d] = he_area s1 [a; b; c; d]).
    { intros x y [x1 x2 x3 x4 x5 _ _ _ _]. unfold he_area. rewrite x3. cbn [map]. rewrite !x4, !x5. reflexivity. }
    split; [|split; [exact A|]].
    + apply andb_true_iff in EA. destruct EA as [_ EA]. rewrite <- EA. f_equal. symmetry. apply AR; auto.
    + cbn. unfold upd. repeat split.
      * intros g NI. simpl in NI. rewrite !(proj2 (Nat.eqb_neq g _)) by (intros ->; tauto). rewrite G1.
        rewrite !(proj2 (Nat.eqb_neq g _)) by (intros ->; tauto). auto.
      * repeat rewrite ?Nat.eqb_refl, ?(proj2 (Nat.eqb_neq _ _)) by auto. cbn. rewrite !G1. rewrite ?Nat.eqb_refl, ?orb_true_r. reflexivity.
      * repeat rewrite ?Nat.eqb_refl, ?(proj2 (Nat.eqb_neq _ _)) by auto. cbn. rewrite !G1. rewrite ?Nat.eqb_refl, ?orb_true_r. reflexivity.
      * repeat rewrite ?Nat.eqb_refl, ?(proj2 (Nat.eqb_neq _ _)) by auto. cbn. rewrite !G1. rewrite ?Nat.eqb_refl, ?orb_true_r. reflexivity.
      * repeat rewrite ?Nat.eqb_refl, ?(proj2 (Nat.eqb_neq _ _)) by auto. cbn. rewrite !G1. rewrite ?Nat.eqb_refl, ?orb_true_r. reflexivity.
  - revert E. unfold cell_init.
    set (s1 := fold_left _ _ s). cbn [length seq fold_res].
    assert (A1 : agree s s1).
    { unfold s1. cbn. repeat (eapply agree_trans; [|apply agree_mod; intros; cbn; auto 10]). apply agree_refl. }
    assert (LK : forall x y s0, agree s s0 -> Hd s x = B s y -> exists s2, link x y s0 = Ok s2 /\ agree s s2).
    { intros x y s0 A0 J. destruct (link x y s0) as [s2|er'] eqn:EL.
      - exists s2. split; auto. eapply agree_trans; [exact A0|eapply agree_link; eauto].
      - exfalso. unfold link in EL. rewrite (a_h _ _ A0), (a_b _ _ A0), J, Nat.eqb_refl, orb_true_r in EL. discriminate. }
    unfold nxt_of. cbn [length Nat.add Nat.modulo Nat.divmod fst snd Nat.sub nth].
    destruct (LK a b s1 A1 J1) as [s2 [-> A2]]. cbn [bind].
    destruct (LK b c s2 A2 J2) as [s3 [-> A3]]. cbn [bind].
    destruct (LK c d s3 A3 J3) as [s4 [-> A4]]. cbn [bind].
    destruct (LK d a s4 A4 J4) as [s5 [-> A5]]. cbn [bind].
    replace (he_area s [a; b; c; d]) with (he_area s5 [a; b; c; d]).
    + cbn [hd last]. rewrite (a_b _ _ A5), (a_h _ _ A5), J4, Nat.eqb_refl. cbn [andb].
      destruct (Qltb 0 (he_area s5 [a; b; c; d])); [discriminate|]. intros Q; injection Q as <-; auto.
    + unfold he_area. rewrite (a_vx _ _ A5). cbn [map]. rewrite !(a_b _ _ A5), !(a_h _ _ A5). reflexivity.
Qed.
