(** * The mesh that is built from a doubly connected edge list (for C28-C30) *)
From Coq Require Import List Arith Bool Lia QArith.
From Verif Require Import Tree Forest Geom SpecGeom Dcel SpecDcel Quad SpecForest TreeFacts ForestFacts QuadFacts QuadSplit QuadInv SpecQuad QuadNb DcelFacts.
Import ListNotations.
Open Scope nat_scope.

Definition fvert (faces : list (list nat)) (f k : nat) : nat := nth k (nth f faces []) 0.
Definition four (f : nat) : list nat := [4 * f; 4 * f + 1; 4 * f + 2; 4 * f + 3].
Definition conn (faces : list (list nat)) (h : nat) : nat * nat :=
  (fvert faces (h / 4) (h mod 4), fvert faces (h / 4) ((h mod 4 + 1) mod 4)).
Definition alignedb (faces : list (list nat)) (h t : nat) : bool :=
  (fst (conn faces h) =? snd (conn faces t)) && (snd (conn faces h) =? fst (conn faces t)).

Record quad_dcel (periodic : bool) (npts : nat) (faces : list (list nat)) (d : dcel) : Prop := {
  q_hes : d_hes d = all_hes 0 0 faces;
  q_faces : d_faces d = faces;
  q_fhe : forall f, f < length faces -> nth_error (d_face_he d) f = Some (4 * f);
  q_quad : forall f, f < length faces -> length (nth f faces []) = 4;
  q_pts : forall f k, f < length faces -> k < 4 -> fvert faces f k < npts;
  q_tlen : length (d_twin d) = 4 * length faces;
  q_twin : forall h t, nth_error (d_twin d) h = Some (Some t) ->
    nth_error (d_twin d) t = Some (Some h) /\ t <> h /\ (alignedb faces h t = true \/ periodic = true) }.

Lemma div4 f k : k < 4 -> (4 * f + k) / 4 = f /\ (4 * f + k) mod 4 = k.
Proof.
  intros L. split.
  - rewrite Nat.mul_comm, Nat.div_add_l, Nat.div_small by lia. lia.
  - rewrite Nat.mul_comm, Nat.add_comm, Nat.mod_add, Nat.mod_small by lia. lia.
Qed.
Lemma div4_of h : h = 4 * (h / 4) + h mod 4.
Proof. apply Nat.div_mod. lia. Qed.

Section INIT.
Context {periodic : bool} {npts : nat} {faces : list (list nat)} {d : dcel} {pts : list pt}.
Context (Q : quad_dcel periodic npts faces d) (LP : length pts = npts).

Lemma q_offset f : f <= length faces -> offset faces f = 4 * f.
Proof.
  induction f as [|f IH]; intros L; [reflexivity|].
  destruct (nth_error faces f) as [fc|] eqn:E; [|apply nth_error_None in E; lia].
  rewrite (offset_S _ _ _ E), IH by lia. apply nth_error_nth with (d := []) in E.
  pose proof (q_quad _ _ _ _ Q f ltac:(lia)) as QL. rewrite E in QL. lia.
Qed.
Lemma q_nth f k : f < length faces -> k < 4 ->
  nth_error (d_hes d) (4 * f + k) =
  Some (mkH (fvert faces f k, fvert faces f ((k + 1) mod 4)) (Some (4 * f + (k + 3) mod 4)) (Some (4 * f + (k + 1) mod 4)) (Some f)).
Proof.
  intros L Lk. rewrite (q_hes _ _ _ _ Q). destruct (nth_error faces f) as [fc|] eqn:E; [|apply nth_error_None in E; lia].
  pose proof (nth_error_nth _ _ [] E) as E'. pose proof (q_quad _ _ _ _ Q f L) as QL. rewrite E' in QL.
  pose proof (all_hes_nth faces 0 0 f fc k E ltac:(lia)) as A. rewrite q_offset in A by lia. rewrite A, QL. unfold fvert. rewrite E'.
  cbn [plus]. replace (k + 4 - 1) with (k + 3) by lia. reflexivity.
Qed.
Lemma q_len : length (d_hes d) = 4 * length faces.
Proof.
  rewrite (q_hes _ _ _ _ Q), all_hes_length, mesh_edges_length. pose proof (q_quad _ _ _ _ Q) as QQ. clear - QQ.
  induction faces as [|x r IH]; [reflexivity|]. cbn [map list_sum]. pose proof (QQ 0 ltac:(simpl; lia)) as Q0. simpl in Q0.
  change (list_sum (length x :: map (length (A:=nat)) r)) with (length x + list_sum (map (length (A:=nat)) r)).
  rewrite Q0, IH by (intros f L; apply (QQ (S f)); simpl; lia). simpl. lia.
Qed.
Lemma q_conn h : h < 4 * length faces -> exists r, nth_error (d_hes d) h = Some r /\ h_conn r = conn faces h.
Proof.
  intros L. replace (nth_error (d_hes d) h) with (nth_error (d_hes d) (4 * (h / 4) + h mod 4)) by (rewrite <- div4_of; auto).
  rewrite q_nth.
  - eexists. split; [reflexivity|]. reflexivity.
  - apply Nat.div_lt_upper_bound; lia.
  - auto.
Qed.
Lemma q_conn_lt h : h < 4 * length faces -> fst (conn faces h) < npts /\ snd (conn faces h) < npts.
Proof.
  intros L. assert (h / 4 < length faces) by (apply Nat.div_lt_upper_bound; lia).
  unfold conn. cbn [fst snd]. split; apply (q_pts _ _ _ _ Q); auto.
Qed.
Lemma q_twin_lt h t : nth_error (d_twin d) h = Some (Some t) -> h < 4 * length faces /\ t < 4 * length faces.
Proof.
  intros E. rewrite <- (q_tlen _ _ _ _ Q). destruct (q_twin _ _ _ _ Q h t E) as [E' _]. split; apply nth_error_Some; congruence.
Qed.
Definition dtw (h : nat) : option nat := match nth_error (d_twin d) h with Some (Some t) => Some t | _ => None end.
Definition per_of (h : nat) : bool := match dtw h with Some t => negb (alignedb faces h t) | None => false end.
Lemma dtw_some h t : dtw h = Some t <-> nth_error (d_twin d) h = Some (Some t).
Proof. unfold dtw. destruct (nth_error (d_twin d) h) as [[x|]|]; split; congruence. Qed.
Lemma dtw_sym h t : dtw h = Some t -> dtw t = Some h /\ t <> h.
Proof. rewrite !dtw_some. intros E. destruct (q_twin _ _ _ _ Q h t E) as [E' [N _]]. auto. Qed.
Lemma aligned_sym h t : alignedb faces h t = alignedb faces t h.
Proof. unfold alignedb. rewrite (Nat.eqb_sym (fst (conn faces h))), (Nat.eqb_sym (snd (conn faces h))). apply andb_comm. Qed.
Lemma per_sym h t : dtw h = Some t -> per_of t = per_of h.
Proof. intros E. destruct (dtw_sym h t E) as [E' _]. unfold per_of. rewrite E, E', aligned_sym. auto. Qed.

Definition base_he (h : nat) (t : option nat) (p : bool) : hedge :=
  mkHe (fst (conn faces h)) (snd (conn faces h)) None None None t None None p.
Definition stage (i : nat) (s : heap) : Prop :=
  nv s = npts /\ (vx s = fun v => nth v pts (0, 0)%Q) /\ nh s = 4 * length faces /\
  forall h, h < nh s -> he s h = base_he h (dtw h) (per_of h) \/ (i <= h /\ he s h = base_he h None false).

Lemma twin_stage n i s : i + n = 4 * length faces -> stage i s ->
  exists s', fold_res (dcel_twin periodic d) (seq i n) s = Ok s' /\ stage (4 * length faces) s'.
Proof.
  revert i s. induction n as [|n IH]; intros i s L S.
  - exists s. replace (4 * length faces) with i by lia. split; [reflexivity|auto].
  - cbn [seq fold_res]. assert (Li : i < 4 * length faces) by lia.
    destruct S as [Sv [Sx [Sn Sh]]].
    enough (X : exists s1, dcel_twin periodic d s i = Ok s1 /\ stage (S i) s1).
    { destruct X as [s1 [-> S1]]. cbn [bind]. apply IH; [lia|auto]. }
    unfold dcel_twin. destruct (nth_error (d_twin d) i) as [[t|]|] eqn:Et.
    + destruct (q_twin_lt i t Et) as [_ Lt]. destruct (q_twin _ _ _ _ Q i t Et) as [Et' [Nt Al]].
      destruct (q_conn i Li) as [ri [Ei Ci]]. destruct (q_conn t Lt) as [rt [Ett Ct]]. rewrite Ei, Ett, Ci, Ct.
      change ((fst (conn faces i) =? snd (conn faces t)) && (snd (conn faces i) =? fst (conn faces t))) with (alignedb faces i t).
      assert (Ei' : dtw i = Some t) by (apply dtw_some; auto). assert (Ed' : dtw t = Some i) by (apply dtw_some; auto).
      set (s0 := if alignedb faces i t then s else mod_he t w_per (mod_he i w_per s)).
      assert (E0 : (if alignedb faces i t then Ok s else if periodic then Ok (mod_he t w_per (mod_he i w_per s)) else Err AssertionError) = Ok s0).
      { unfold s0. destruct (alignedb faces i t); auto. destruct Al as [?| ->]; [discriminate|auto]. }
      rewrite E0. cbn [bind].
      assert (Pi : per_of i = negb (alignedb faces i t)) by (unfold per_of; rewrite Ei'; auto).
      assert (H0 : nv s0 = nv s /\ vx s0 = vx s /\ nh s0 = nh s /\ (forall g, g <> i -> g <> t -> he s0 g = he s g) /\
                   exists x y, he s0 i = base_he i x (per_of i) /\ he s0 t = base_he t y (per_of i)).
      { unfold s0. rewrite Pi. destruct (alignedb faces i t) eqn:EA.
        - repeat split; auto. destruct (Sh i ltac:(lia)) as [-> |[_ ->]], (Sh t ltac:(lia)) as [-> |[_ ->]];
          rewrite ?(per_sym i t Ei'), ?Pi; eauto.
        - repeat split; auto.
          + intros g N1 N2. cbn. unfold upd. rewrite !(proj2 (Nat.eqb_neq g _)) by auto. auto.
          + cbn. unfold upd. rewrite !Nat.eqb_refl, !(proj2 (Nat.eqb_neq i t)), !(proj2 (Nat.eqb_neq t i)) by auto.
            destruct (Sh i ltac:(lia)) as [-> |[_ ->]], (Sh t ltac:(lia)) as [-> |[_ ->]]; unfold w_per, base_he; cbn; eauto. }
      clearbody s0. destruct H0 as [Nv0 [Vx0 [Nh0 [O0 [x [y [Hi Ht]]]]]]].
      assert (AL : R s0 i = true \/ (B s0 i = Hd s0 t /\ Hd s0 i = B s0 t)).
      { rewrite Hi, Ht. cbn. rewrite Pi. destruct (alignedb faces i t) eqn:EA; auto. right.
        apply andb_true_iff in EA. destruct EA as [A1 A2]. apply Nat.eqb_eq in A1, A2. auto. }
      destruct (assign_twin_spec i t s0 AL) as [s1 [E1 [N1 [V1 [X1 G1]]]]]. rewrite E1. cbn [bind].
      destruct (assign_twin_spec t i s1) as [s2 [E2 [N2 [V2 [X2 G2]]]]].
      { rewrite !G1, Nat.eqb_refl, (proj2 (Nat.eqb_neq t i)) by auto. rewrite Hi, Ht in *. cbn in *. destruct AL as [->|[-> ->]]; auto. }
      exists s2. split; auto. unfold stage. repeat split; try congruence. intros h Lh. rewrite G2, G1.
      destruct (Nat.eqb_spec h t) as [->|Nht].
      * left. rewrite (proj2 (Nat.eqb_neq t i)) by auto. rewrite Ht, Ed'. unfold base_he, w_twin. cbn. rewrite (per_sym i t Ei'). auto.
      * destruct (Nat.eqb_spec h i) as [->|Nhi].
        { left. rewrite Hi, Ei'. reflexivity. }
        rewrite O0 by auto. destruct (Sh h ltac:(lia)) as [->|[Lhi ->]]; [left; auto|]. right. split; auto. lia.
    + exists s. split; auto. unfold stage. repeat split; auto. intros h Lh. destruct (Sh h ltac:(lia)) as [E|[Lhi E]]; auto.
      destruct (Nat.eq_dec h i) as [->|Ne]; [|right; split; auto; lia]. left. rewrite E. unfold per_of, dtw. rewrite Et. auto.
    + apply nth_error_None in Et. rewrite (q_tlen _ _ _ _ Q) in Et. lia.
Qed.

Lemma follow_four f : f < length faces -> follow (S (length (d_hes d))) d (4 * f) (4 * f) = Ok (four f).
Proof.
  intros L. rewrite q_len. assert (4 <= 4 * length faces) by lia.
  destruct (4 * length faces) as [|[|[|[|n]]]]; try lia.
  assert (F : forall k a, k < 4 -> nth_error (d_hes d) a = nth_error (d_hes d) (4 * f + k) -> 
    exists r, nth_error (d_hes d) a = Some r /\ h_next r = Some (4 * f + (k + 1) mod 4)).
  { intros k a Lk E. rewrite E, q_nth by auto. eexists; split; reflexivity. }
  cbn [follow].
  destruct (F 0 (4 * f) ltac:(lia)) as [r0 [-> ->]]; [f_equal; lia|].
  change ((0 + 1) mod 4) with 1. rewrite (proj2 (Nat.eqb_neq (4 * f + 1) (4 * f))) by lia.
  destruct (F 1 (4 * f + 1) ltac:(lia) eq_refl) as [r1 [-> ->]].
  change ((1 + 1) mod 4) with 2. rewrite (proj2 (Nat.eqb_neq (4 * f + 2) (4 * f))) by lia.
  destruct (F 2 (4 * f + 2) ltac:(lia) eq_refl) as [r2 [-> ->]].
  change ((2 + 1) mod 4) with 3. rewrite (proj2 (Nat.eqb_neq (4 * f + 3) (4 * f))) by lia.
  destruct (F 3 (4 * f + 3) ltac:(lia) eq_refl) as [r3 [-> ->]].
  change ((3 + 1) mod 4) with 0. rewrite (proj2 (Nat.eqb_eq (4 * f + 0) (4 * f))) by lia. reflexivity.
Qed.
Lemma four_nth f k : k < 4 -> nth k (four f) 0 = 4 * f + k.
Proof. intros L. destruct k as [|[|[|[|k]]]]; try lia; unfold four; cbn [nth]; lia. Qed.
Lemma four_in f g : In g (four f) <-> g / 4 = f.
Proof.
  split.
  - intros I. assert (exists k, k < 4 /\ g = 4 * f + k) as [k [Lk ->]] by (unfold four in I; simpl in I; destruct I as [E|[E|[E|[E|[]]]]]; [exists 0|exists 1|exists 2|exists 3]; lia).
    apply div4; auto.
  - intros <-. pose proof (div4_of g) as D. pose proof (m4_lt g). unfold four, In.
    revert D H. generalize (g / 4) (g mod 4). intros; lia.
Qed.
Lemma four_nodup f : NoDup (four f).
Proof. unfold four. repeat constructor; simpl; lia. Qed.

Definition root_node (r : nat) : node (list nat) :=
  Node (mkMeta ROOT 0 [r] (Some r) [] true) (four r) [None; None; None; None].
Definition face_edges (f : nat) : list edge :=
  map (fun k => (nth (fvert faces f k) pts (0, 0)%Q, nth (fvert faces f ((k + 1) mod 4)) pts (0, 0)%Q)) [0; 1; 2; 3].
Definition cstage (s0 : heap) (i : nat) (s : heap) (f : forest (list nat)) : Prop :=
  agree s0 s /\ f = map root_node (seq 0 i) /\
  (forall h, i <= h / 4 -> he s h = he s0 h) /\
  (forall r k, r < i -> k < 4 -> he s (4 * r + k) = set_links [r] (4 * r + (k + 3) mod 4) (4 * r + (k + 1) mod 4) (he s0 (4 * r + k))) /\
  (forall r, r < i -> Qltb 0 (area_of (face_edges r)) = true).

Lemma cell_stage s0 n i s f : stage (4 * length faces) s0 -> i + n = length faces -> cstage s0 i s f ->
  match fold_res (dcel_cell d) (seq i n) (s, f) with
  | Ok (s', f') => cstage s0 (length faces) s' f'
  | Err e => e = AssertionError /\ exists r, r < length faces /\ Qltb 0 (area_of (face_edges r)) = false
  end.
Proof.
  intros S. revert i s f. induction n as [|n IH]; intros i s f L CS.
  - cbn [seq fold_res]. replace (length faces) with i by lia. auto.
  - cbn [seq fold_res]. assert (Li : i < length faces) by lia.
    destruct CS as [A [Ef [Hh [Hr Ha]]]]. destruct S as [Sv [Sx [Sn Sh]]].
    assert (S0 : forall h, h < 4 * length faces -> he s0 h = base_he h (dtw h) (per_of h)).
    { intros h Lh. destruct (Sh h ltac:(lia)) as [E|[? _]]; auto. lia. }
    unfold dcel_cell at 1. rewrite (q_fhe _ _ _ _ Q i Li), (follow_four i Li). cbn [bind].
    assert (BH : forall k, k < 4 -> B s (4 * i + k) = fvert faces i k /\ Hd s (4 * i + k) = fvert faces i ((k + 1) mod 4)).
    { intros k Lk. rewrite (a_b _ _ A), (a_h _ _ A), S0 by lia. unfold base_he, conn. cbn [hbase hhead fst snd]. destruct (div4 i k Lk) as [-> ->]. auto. }
    destruct (BH 0 ltac:(lia)) as [b0 h0], (BH 1 ltac:(lia)) as [b1 h1], (BH 2 ltac:(lia)) as [b2 h2], (BH 3 ltac:(lia)) as [b3 h3].
    simpl Nat.modulo in h0, h1, h2, h3. rewrite Nat.add_0_r in b0, h0.
    pose proof (cell_init4 [i] (4 * i) (4 * i + 1) (4 * i + 2) (4 * i + 3) s (four_nodup i) ltac:(congruence) ltac:(congruence) ltac:(congruence) ltac:(congruence)) as CI.
    fold (four i) in CI.
    assert (EA : he_area s (four i) = area_of (face_edges i)).
    { unfold he_area, four, face_edges. cbn [map]. rewrite b0, b1, b2, b3, h0, h1, h2, h3, (a_vx _ _ A), Sx. reflexivity. }
    rewrite EA in CI. destruct (cell_init [i] (four i) s) as [s1|e]; cbn [bind].
    + destruct CI as [CA [A1 [Oth [G0 [G1 [G2 G3]]]]]].
      change (length (four i) =? 4) with true. cbn [add_tree].
      assert (ET : add_tree (new_root 4 (four i)) f = Ok (map root_node (seq 0 (S i)))).
      { unfold add_tree. replace (length f) with i by (rewrite Ef, map_length, seq_length; auto).
        change (plant i (new_root 4 (four i))) with (Ok (root_node i)). cbn [bind]. rewrite Ef, seq_S, map_app. reflexivity. }
      rewrite ET. cbn [bind]. apply IH; [lia|]. split; [eapply agree_trans; eauto|]. split; auto. split; [|split].
      * intros h Lh. rewrite Oth, Hh; auto; [lia|]. rewrite four_in. lia.
      * intros r k Lr Lk. destruct (Nat.eq_dec r i) as [->|Ne].
        { assert (Hk : he s (4 * i + k) = he s0 (4 * i + k)) by (apply Hh; rewrite (proj1 (div4 i k Lk)); lia). rewrite <- Hk.
          destruct k as [|[|[|[|k]]]]; try lia; simpl Nat.modulo; rewrite ?Nat.add_0_r; auto. }
        { rewrite Oth; [apply Hr; lia|]. rewrite four_in, (proj1 (div4 r k Lk)). auto. }
      * intros r Lr. destruct (Nat.eq_dec r i) as [->|Ne]; auto. apply Ha. lia.
    + destruct CI as [-> CA]. split; auto. exists i. auto.
Qed.

Theorem mesh_of_dcel_inv :
  match mesh_of_dcel periodic pts d with
  | Ok m => sinv m /\
      (forall r, here m [r] <-> r < length faces) /\ (forall r i q, ~ here m (r :: i :: q)) /\
      (forall r k, r < length faces -> k < 4 -> side m [r] k = 4 * r + k /\
          B (hp m) (4 * r + k) = fvert faces r k /\ T (hp m) (4 * r + k) = dtw (4 * r + k) /\
          R (hp m) (4 * r + k) = per_of (4 * r + k)) /\
      nv (hp m) = npts /\ nh (hp m) = 4 * length faces /\ (forall v, vx (hp m) v = nth v pts (0, 0)%Q) /\
      (forall p, marked_at (cells m) p = fun _ => false) /\
      (forall r, r < length faces -> Qltb 0 (area_of (face_edges r)) = true)
  | Err e => e = AssertionError /\ exists r, r < length faces /\ Qltb 0 (area_of (face_edges r)) = false
  end.
Proof.
  unfold mesh_of_dcel. rewrite q_len.
  assert (S0 : stage 0 (dcel_heap pts d)).
  { split; [auto|]. split; [auto|]. split; [apply q_len|]. intros h Lh. right. split; [lia|]. cbn in Lh |- *. rewrite q_len in Lh.
    destruct (q_conn h Lh) as [r [-> Er]]. rewrite Er. reflexivity. }
  destruct (twin_stage (4 * length faces) 0 _ eq_refl S0) as [s1 [-> S1]]. cbn [bind].
  rewrite (q_faces _ _ _ _ Q).
  assert (C0 : cstage s1 0 s1 []).
  { split; [apply agree_refl|]. split; [auto|]. split; [auto|]. split; intros; lia. }
  pose proof (cell_stage s1 (length faces) 0 s1 [] S1 eq_refl C0) as CS.
  match goal with |- context [bind ?x _] => change (match x with Ok (s', f') => cstage s1 (length faces) s' f'
    | Err e => e = AssertionError /\ exists r, r < length faces /\ Qltb 0 (area_of (face_edges r)) = false end) in CS;
    destruct x as [[s2 f2]|e] end; cbn [bind fst snd]; [|exact CS].
  destruct CS as [A [Ef [_ [Hr Ha]]]]. destruct S1 as [Sv [Sx [Sn Sh]]].
  assert (E1 : forall h, h < 4 * length faces -> he s1 h = base_he h (dtw h) (per_of h)).
  { intros h Lh. destruct (Sh h ltac:(lia)) as [E|[? _]]; auto. lia. }
  set (m := mkMesh s2 f2).
  assert (Gr : forall r, r < length faces -> fget f2 [r] = Some (root_node r)).
  { intros r Lr. cbn. rewrite Ef, nth_error_map, nth_error_seq by auto. reflexivity. }
  assert (Gn : forall r, length faces <= r -> forall q, fget f2 (r :: q) = None).
  { intros r Lr q. cbn. rewrite Ef, nth_error_map. replace (nth_error (seq 0 (length faces)) r) with (@None nat); auto.
    symmetry. apply nth_error_None. rewrite seq_length. auto. }
  assert (Gd : forall r i q, fget f2 (r :: i :: q) = None).
  { intros r i q. destruct (Nat.lt_ge_cases r (length faces)) as [L|L]; [|apply Gn; auto].
    change (r :: i :: q) with ([r] ++ i :: q). rewrite fget_app, Gr by auto. cbn. destruct i as [|[|[|[|[|]]]]]; auto. }
  assert (Ir : forall r, r < length faces -> info f2 [r] = Some (four r, 4, true)).
  { intros r Lr. unfold info. rewrite Gr by auto. reflexivity. }
  assert (Hh : forall p, here m p -> exists r, r < length faces /\ p = [r]).
  { intros p Hp. unfold here, info in Hp. cbn [cells m] in Hp. destruct p as [|r [|i q]].
    - cbn in Hp. congruence.
    - exists r. split; auto. destruct (Nat.lt_ge_cases r (length faces)) as [L|L]; auto. rewrite Gn in Hp by auto. cbn in Hp; congruence.
    - rewrite Gd in Hp. cbn in Hp; congruence. }
  assert (Sd : forall r k, r < length faces -> k < 4 -> side m [r] k = 4 * r + k).
  { intros r k Lr Lk. unfold side. cbn [cells m]. rewrite Ir by auto. apply four_nth; auto. }
  assert (E2 : forall r k, r < length faces -> k < 4 -> he s2 (4 * r + k) = mkHe (fvert faces r k) (fvert faces r ((k + 1) mod 4))
      (Some [r]) (Some (4 * r + (k + 3) mod 4)) (Some (4 * r + (k + 1) mod 4)) (dtw (4 * r + k)) None None (per_of (4 * r + k))).
  { intros r k Lr Lk. rewrite Hr, E1 by (auto; lia). unfold base_he, set_links, conn. destruct (div4 r k Lk) as [-> ->]. reflexivity. }
  assert (Nh : nh s2 = 4 * length faces) by (rewrite (a_nh _ _ A); auto).
  assert (Sp : forall h, h < nh s2 -> exists r k, r < length faces /\ k < 4 /\ h = 4 * r + k).
  { intros h Lh. exists (h / 4), (h mod 4). split; [apply Nat.div_lt_upper_bound; lia|]. split; auto. apply div4_of. }
  split; [|split; [|split; [|split; [|split; [|split; [|split; [|split]]]]]]].
  - constructor; cbn [hp m].
    + constructor.
      * intros h Lh. destruct (Sp h Lh) as [r [k [Lr [Lk ->]]]]. rewrite E2 by auto. cbn [hbase hhead twin hper hkids hpar fst snd hcell prev next]. rewrite (a_nv _ _ A), Sv.
        split; apply (q_pts _ _ _ _ Q); auto.
      * intros h t Lh ET. destruct (Sp h Lh) as [r [k [Lr [Lk ->]]]]. rewrite E2 in * by auto. cbn [hbase hhead twin hper hkids hpar fst snd hcell prev next] in ET |- *.
        destruct (dtw_sym _ _ ET) as [ET' NT]. destruct (q_twin_lt _ _ (proj1 (dtw_some _ _) ET)) as [_ Lt].
        assert (Lt' : t < nh s2) by lia. split; auto. destruct (Sp t Lt') as [r' [k' [Lr' [Lk' ->]]]]. rewrite E2 by auto. cbn [hbase hhead twin hper hkids hpar fst snd hcell prev next].
        split; auto. split; auto. split; [apply per_sym; auto|]. intros RF. unfold per_of in RF. rewrite ET in RF.
        apply negb_false_iff in RF. apply andb_true_iff in RF. destruct RF as [R1 R2]. apply Nat.eqb_eq in R1, R2.
        unfold conn in R1, R2. destruct (div4 r k Lk) as [D1 D2]. destruct (div4 r' k' Lk') as [D3 D4]. rewrite D1, D2, D3, D4 in *. cbn [fst snd] in *. auto.
      * intros h a b Lh EK. destruct (Sp h Lh) as [r [k [Lr [Lk ->]]]]. rewrite E2 in EK by auto. discriminate.
      * intros a h i La EP. destruct (Sp a La) as [r [k [Lr [Lk ->]]]]. rewrite E2 in EP by auto. discriminate.
      * intros h a b Lh EK. destruct (Sp h Lh) as [r [k [Lr [Lk ->]]]]. rewrite E2 in EK by auto. discriminate.
    + intros p hs k b E. destruct (Hh p) as [r [Lr ->]]; [unfold here; congruence|]. cbn [cells m] in E. rewrite Ir in E by auto. injection E as <- <- <-.
      split; auto. split; [reflexivity|]. split; [apply four_nodup|]. intros j Lj. rewrite !four_nth by auto.
      rewrite !E2 by auto. cbn [hbase hhead twin hper hkids hpar fst snd hcell prev next]. repeat split; auto. lia.
    + intros p i Np Hi. destruct (Hh _ Hi) as [r [_ E]]. destruct p as [|? [|]]; simpl in E; congruence.
    + intros p Hp _ k Lk. destruct (Hh p Hp) as [r [Lr ->]]. rewrite Sd, E2 by auto. reflexivity.
    + intros p i Np Hi. destruct (Hh _ Hi) as [r [_ E]]. destruct p as [|? [|]]; simpl in E; congruence.
    + intros r k Hp Lk. destruct (Hh _ Hp) as [r' [Lr E]]. injection E as ->. rewrite Sd, E2 by auto. reflexivity.
    + intros h Lh. destruct (Sp h Lh) as [r [k [Lr [Lk ->]]]]. exists [r], k. split; [unfold here; cbn [cells m]; rewrite Ir by auto; congruence|].
      split; auto. rewrite Sd; auto.
  - intros r. split.
    + intros Hp. destruct (Hh _ Hp) as [r' [Lr E]]. injection E as ->. auto.
    + intros Lr. unfold here. cbn [cells m]. rewrite Ir by auto. congruence.
  - intros r i q Hp. destruct (Hh _ Hp) as [r' [_ E]]. discriminate.
  - intros r k Lr Lk. rewrite Sd by auto. cbn [hp m]. rewrite E2 by auto. auto.
  - cbn [hp m]. rewrite (a_nv _ _ A). auto.
  - auto.
  - intros v. cbn [hp m]. rewrite (a_vx _ _ A), Sx. auto.
  - intros p. unfold marked_at. cbn [cells m]. destruct (fget f2 p) as [n|] eqn:E; auto. destruct (Hh p) as [r [Lr ->]].
    { unfold here, info. cbn [cells m]. rewrite E. cbn; congruence. }
    rewrite Gr in E by auto. injection E as <-. reflexivity.
  - auto.
Qed.
End INIT.
