(** Counting dofs of 1D meshes; dof vertices *)
From Coq Require Import List Arith Bool Lia QArith Qabs Lqa Permutation.
Import ListNotations.
From Verif Require Import Tree Forest SpecForest TreeFacts ForestFacts LabelFacts RootFacts History PlaceFacts
  RefineFacts RefineFacts2 Geom GenFacts SpecGeom IntervalFacts LeafFacts Mesh1D Mesh1DFacts Prop_1D Fem SpecFem ShapeFacts
  Prop_Inherit Dof SpecDof DofFacts DofInv GrowFacts Dof1DFacts Dof1DHist Prop_Dof1D DofVert SpecDofVert.
Open Scope nat_scope.

Lemma nodup_app' {X} (l m : list X) : NoDup l -> NoDup m -> (forall x, In x l -> ~ In x m) -> NoDup (l ++ m).
Proof.
  intros Hl Hm H. induction Hl as [|x l Nx Hl IH]; cbn; auto. constructor.
  - rewrite in_app_iff. intros [C|C]; [auto|]. apply (H x); cbn; auto.
  - apply IH. intros y Hy. apply H. right. auto.
Qed.
Lemma nodup_prod {X Y} (l : list X) (m : list Y) : NoDup l -> NoDup m -> NoDup (list_prod l m).
Proof.
  intros Hl Hm. induction Hl as [|x l Nx Hl IH]; cbn; [constructor|]. apply nodup_app'; auto.
  - apply FinFun.Injective_map_NoDup; auto. intros y z E. congruence.
  - intros [x' y] H1 H2. apply in_map_iff in H1. destruct H1 as [z [E _]]. injection E as <- <-. apply in_prod_iff in H2. tauto.
Qed.
Lemma nodup_map_on {X Y} (h : X -> Y) l : NoDup l -> (forall x y, In x l -> In y l -> h x = h y -> x = y) -> NoDup (map h l).
Proof.
  intros Hl H. induction Hl as [|x l Nx Hl IH]; cbn; constructor.
  - intro C. apply in_map_iff in C. destruct C as [y [E Hy]]. assert (y = x) by (apply H; [right|left|]; auto). congruence.
  - apply IH. intros y z Hy Hz. apply H; right; auto.
Qed.
Lemma prod_len {X Y} (l : list X) (m : list Y) : length (list_prod l m) = length l * length m.
Proof. apply prod_length. Qed.
Lemma same_elements_len {X} (l m : list X) : NoDup l -> NoDup m -> (forall x, In x l <-> In x m) -> length l = length m.
Proof. intros H1 H2 H. apply Permutation_length, NoDup_Permutation; auto. Qed.

Lemma leaves_len {A} (f : forest A) sf md md' : length (fget_leaves f None sf md) = length (fget_leaves f None sf md').
Proof.
  apply same_elements_len; try (eapply NoDup_map_inv, fget_leaves_nodup).
  intros [p n]. rewrite !in_fget_leaves. tauto.
Qed.

(** the dofs of a region are the dofs of its leaves *)
Lemma region_spec (f : forest itv) sf s : (forall p, sub_leaf f sf p -> gd s p <> None) ->
  exists l, region_dofs f sf s = Ok l /\ NoDup l /\
    (forall o, In o l <-> exists p es, sub_leaf f sf p /\ gd s p = Some es /\ In o es).
Proof.
  intro H. unfold region_dofs.
  assert (G : forall ps acc, (forall p, In p ps -> gd s p <> None) ->
    exists l, fold_res (fun acc p => match gd s p with Some l => Ok (acc ++ l) | None => Err TypeError end) ps acc = Ok l /\
      forall o, In o l <-> In o acc \/ exists p es, In p ps /\ gd s p = Some es /\ In o es).
  { induction ps as [|p ps IH]; intros acc Hp; cbn [fold_res].
    - exists acc. split; auto. intro o. split; auto. intros [Ho|[p [es [[] _]]]]; auto.
    - destruct (gd s p) as [es|] eqn:E; [|exfalso; apply (Hp p); cbn; auto]. cbn [bind].
      destruct (IH (acc ++ es)) as [l [El Hl]]; [intros q Hq; apply Hp; right; auto|]. exists l. split; auto.
      intro o. rewrite Hl, in_app_iff. split.
      + intros [[Ho|Ho]|[q [es' [Hq [Eq Ho]]]]]; [auto|right; exists p, es; cbn; auto|right; exists q, es'; cbn; auto].
      + intros [Ho|[q [es' [[<-|Hq] [Eq Ho]]]]]; [auto|rewrite E in Eq; injection Eq as <-; auto|right; eauto]. }
  destruct (G (map fst (fget_leaves f None sf BreadthFirst)) []) as [l [El Hl]].
  { intros p Hp. apply in_map_iff in Hp. destruct Hp as [[q n] [<- Hq]]. apply in_fget_leaves in Hq. apply H. exists n. tauto. }
  rewrite El. cbn [bind]. exists (nodup slot_dec l). split; auto. split; [apply NoDup_nodup|].
  intro o. rewrite nodup_In, Hl. split.
  - intros [[]|[p [es [Hp [E Ho]]]]]. exists p, es. split; auto. apply in_map_iff in Hp. destruct Hp as [[q n] [<- Hq]].
    apply in_fget_leaves in Hq. exists n. tauto.
  - intros [p [es [[n [En Ln]] [E Ho]]]]. right. exists p, es. split; auto. apply in_map_iff. exists (p, n). split; auto.
    apply in_fget_leaves. cbn. auto.
Qed.

Section After.
Context (periodic : bool) (a b : Q) (e : elem) (f : forest itv) (sf : option flag) (s : dofs).
Hypothesis HH : dof_history periodic a b e f s.
Hypothesis HR : submesh_rooted f sf.
Hypothesis HF : forall p, in_sub f sf p -> filled (n_dofs D1 e) s p.
Let L := fget_leaves f None sf DepthFirst.
Lemma in_leaves p n : In (p, n) L <-> fget f p = Some n /\ is_leaf_of sf n.
Proof. unfold L. rewrite in_fget_leaves. cbn. tauto. Qed.
Lemma leaf_in_sub p : sub_leaf f sf p -> in_sub f sf p.
Proof. intros [n [E [F _]]]. exists n. auto. Qed.
Lemma leaf_region : exists l, region_dofs f sf s = Ok l /\ NoDup l /\
  (forall o, In o l <-> exists p n k d, In (p, n) L /\ o = Some d /\ dof_at s p k d).
Proof.
  destruct (region_spec f sf s) as [l [E [N H]]].
  { intros p Hp. destruct (HF p (leaf_in_sub p Hp)) as [es [Ee _]]. congruence. }
  exists l. split; auto. split; auto. intro o. rewrite H. split.
  - intros [p [es [[n [En Ln]] [Ee Ho]]]]. destruct (HF p) as [es' [Ee' [Le Hk]]]; [exists n; split; auto; apply Ln|].
    rewrite Ee in Ee'. injection Ee' as <-. apply In_nth_error in Ho. destruct Ho as [k Hk'].
    assert (Lk : k < n_dofs D1 e) by (rewrite <- Le; apply nth_error_Some; congruence).
    destruct (Hk k Lk) as [d [es' [Ee' Hd]]]. rewrite Ee in Ee'. injection Ee' as <-.
    exists p, n, k, d. split; [apply in_leaves; auto|]. split; [congruence|]. exists es. auto.
  - intros [p [n [k [d [Hp [-> [es [Ee Hk]]]]]]]]. exists p, es. apply in_leaves in Hp. split; [exists n; auto|]. split; auto. eapply nth_error_In; eauto.
Qed.
Lemma mesh_facts : fgen ikid f /\ (forall p n, fget f p = Some n -> n_children n = 2) /\ tiles a b (map n_data f).
Proof. destruct (mesh_good _ _ _ _ _ (history_mesh _ _ _ _ _ _ HH)) as [M1 [M2 [M3 _]]]. auto. Qed.
Lemma leaves_tiles : tiles a b (map (fun c => n_data (snd c)) L).
Proof. destruct mesh_facts as [G [_ T]]. apply forest_leaves_tile; auto. Qed.
Lemma slot_leaf p n k : In (p, n) L -> k < n_dofs D1 e -> exists d, dof_at s p k d /\ position1 e f p k (imap (n_data n) (nodeQ e k)).
Proof.
  intros Hp Lk. apply in_leaves in Hp. destruct (HF p) as [es [_ [_ Hk]]]; [exists n; split; [apply Hp|apply Hp]|].
  destruct (Hk k Lk) as [d Hd]. exists d. split; auto. exists n, (nodeQ e k). split; [apply Hp|]. split; auto. apply nodes_nth. auto.
Qed.
Lemma leaf_data i c : nth_error L i = Some c -> nth_error (map (fun c => n_data (snd c)) L) i = Some (n_data (snd c)).
Proof. intro E. rewrite nth_error_map, E. auto. Qed.
(** two different leaves are not one above the other *)
Lemma leaf_prefix p n q m : In (p, n) L -> In (q, m) L -> prefix p q -> p = q.
Proof.
  intros H1 H2 [r ->]. apply in_leaves in H1, H2. destruct H1 as [E1 [F1 N1]], H2 as [E2 [F2 N2]].
  destruct r as [|i r]; [rewrite app_nil_r; auto|]. exfalso.
  assert (Np : p <> []) by (intros ->; discriminate).
  destruct (@rooted_inner itv f sf p i r n m) as [_ [k [Ek Fk]]]; auto. eapply N1; eauto.
Qed.

(** ** continuous elements *)
Section Cont.
Hypothesis HC : torn e = false.
Hypothesis HN : f <> [].
Lemma degree_dofs : n_dofs D1 e = S (degree e).
Proof. revert HC. clear. destruct e; cbn; intro; congruence || reflexivity. Qed.
Lemma degree_pos : 0 < degree e.
Proof. revert HC. clear. destruct e; cbn; intro; congruence || lia. Qed.
Lemma node_later k : 0 < k -> k < n_dofs D1 e -> (0 < nodeQ e k)%Q.
Proof.
  intros L0 Lk. destruct (nodes_0 e HC) as [N0 N1]. destruct (nodes_unit e k) as [U _].
  destruct (Qlt_le_dec 0 (nodeQ e k)) as [|C]; auto. assert (X : (nodeQ e k == nodeQ e 0)%Q) by (rewrite N1; lra).
  apply nodes_inj in X; auto. lia.
Qed.
Lemma imap_in (d : itv) x : (fst d < snd d)%Q -> (0 < x <= 1)%Q -> (fst d < imap d x <= snd d)%Q.
Proof. intros H [H1 H2]. unfold imap. nra. Qed.
Lemma leaf_pos i c : nth_error L i = Some c -> (a <= fst (n_data (snd c)) /\ fst (n_data (snd c)) < snd (n_data (snd c)) /\ snd (n_data (snd c)) <= b)%Q.
Proof. intro E. apply (tiles_nth _ _ _ leaves_tiles i). apply leaf_data. auto. Qed.
Lemma imap_inj (d : itv) x y : (fst d < snd d)%Q -> (imap d x == imap d y)%Q -> (x == y)%Q.
Proof. intros H E. unfold imap in E. assert (Z : ((snd d - fst d) * (x - y) == 0)%Q) by lra. apply Qmult_integral in Z. destruct Z; lra. Qed.

Definition pick (ck : (path * node itv) * nat) : option nat := slot s (fst (fst ck)) (snd ck).
Lemma pick_inj c k c' k' : In c L -> In c' L -> 0 < k -> k < n_dofs D1 e -> 0 < k' -> k' < n_dofs D1 e ->
  pick (c, k) = pick (c', k') -> (c, k) = (c', k').
Proof.
  intros Hc Hc' K1 K2 K1' K2' E. destruct c as [p n], c' as [q m]. unfold pick in E. cbn [fst snd] in E.
  destruct (slot_leaf p n k Hc K2) as [d [Hd X]]. destruct (slot_leaf q m k' Hc' K2') as [d' [Hd' Y]].
  pose proof (proj2 (slot_dof _ _ _ _) Hd) as Z1. pose proof (proj2 (slot_dof _ _ _ _) Hd') as Z2. rewrite Z1, Z2 in E. injection E as <-.
  pose proof (proj1 (C34_continuous _ _ _ _ _ _ _ _ _ _ _ _ _ _ HH HC Hd Hd' X Y) eq_refl) as S.
  apply In_nth_error in Hc, Hc'. destruct Hc as [i Ei], Hc' as [j Ej].
  pose proof (leaf_pos i _ Ei) as [A1 [A2 A3]]. pose proof (leaf_pos j _ Ej) as [B1 [B2 B3]]. cbn [snd] in *.
  destruct (nodes_unit e k) as [_ U]. destruct (nodes_unit e k') as [_ U'].
  destruct (imap_in (n_data n) (nodeQ e k) A2 (conj (node_later k K1 K2) U)) as [P1 P2].
  destruct (imap_in (n_data m) (nodeQ e k') B2 (conj (node_later k' K1' K2') U')) as [P1' P2'].
  assert (EQ : (imap (n_data n) (nodeQ e k) == imap (n_data m) (nodeQ e k'))%Q).
  { destruct S as [S|[_ [[S1 S2]|[S1 S2]]]]; auto; exfalso; lra. }
  destruct (Nat.lt_trichotomy i j) as [Lt|[->|Lt]].
  - exfalso. pose proof (tiles_lt _ _ _ leaves_tiles i j _ _ Lt (leaf_data _ _ Ei) (leaf_data _ _ Ej)) as T. cbn [snd] in T. lra.
  - rewrite Ei in Ej. injection Ej as <- <-. f_equal. apply imap_inj in EQ; auto. apply nodes_inj in EQ; auto.
  - exfalso. pose proof (tiles_lt _ _ _ leaves_tiles j i _ _ Lt (leaf_data _ _ Ej) (leaf_data _ _ Ei)) as T. cbn [snd] in T. lra.
Qed.
Lemma first_leaf : exists c, nth_error L 0 = Some c /\ (fst (n_data (snd c)) == a)%Q /\ (a < b)%Q.
Proof.
  destruct mesh_facts as [_ [_ T]]. assert (AB : (a < b)%Q).
  { destruct f as [|t r]; [congruence|]. cbn [map] in T. destruct (tiles_nth _ _ _ T 0 (n_data t) eq_refl) as [X [Y Z]]. lra. }
  pose proof leaves_tiles as TL. destruct (nth_error L 0) as [c|] eqn:E.
  - exists c. split; auto. split; auto. apply (tiles_first a b (map (fun c => n_data (snd c)) L)); auto. apply leaf_data. auto.
  - exfalso. apply nth_error_None in E. assert (E0 : L = []) by (destruct L; [auto|cbn in E; lia]). rewrite E0 in TL. cbn in TL. lra.
Qed.
Lemma last_leaf : exists i c, nth_error L i = Some c /\ (snd (n_data (snd c)) == b)%Q.
Proof.
  destruct first_leaf as [c0 [E0 _]]. assert (LL : 0 < length L) by (apply nth_error_Some; congruence).
  destruct (nth_error L (length L - 1)) as [c|] eqn:E; [|apply nth_error_None in E; lia].
  exists (length L - 1), c. split; auto. apply (tiles_last _ _ _ leaves_tiles (length L - 1)); [apply leaf_data; auto|]. rewrite map_length. lia.
Qed.
(** every dof of a leaf is one of the right ones of a leaf, or the first one *)
Lemma left_dof i c : nth_error L i = Some c -> i <> 0 \/ periodic = true -> exists c', In c' L /\ pick (c, 0) = pick (c', 1).
Proof.
  intros E Hi. destruct (nodes_0 e HC) as [N0 Z0]. destruct (nodes_1 e HC) as [N1 Z1]. change (nd e) with (n_dofs D1 e) in *.
  assert (X : exists j c', nth_error L j = Some c' /\ same_point periodic a b (imap (n_data (snd c')) (nodeQ e 1)) (imap (n_data (snd c)) (nodeQ e 0))).
  { assert (I0 : (imap (n_data (snd c)) (nodeQ e 0) == fst (n_data (snd c)))%Q) by (unfold imap; rewrite Z0; lra).
    destruct i as [|i].
    - destruct Hi as [Hi|Hi]; [lia|]. destruct last_leaf as [j [c' [Ej Bj]]]. exists j, c'. split; auto. right. split; auto. right. split.
      + unfold imap. rewrite Z1. lra.
      + destruct first_leaf as [c0 [E0 [A0 _]]]. rewrite E in E0. injection E0 as <-. rewrite I0. auto.
    - destruct (nth_error L i) as [c'|] eqn:Ei; [|exfalso; apply nth_error_None in Ei; assert (S i < length L) by (apply nth_error_Some; congruence); lia].
      exists i, c'. split; auto. left. rewrite I0. pose proof (tiles_joint _ _ _ leaves_tiles i _ _ (leaf_data _ _ Ei) (leaf_data _ _ E)) as J.
      rewrite <- J. unfold imap. rewrite Z1. lra. }
  destruct X as [j [c' [Ej Sm]]]. destruct c as [p n], c' as [q m]. apply nth_error_In in E, Ej. exists (q, m). split; auto.
  destruct (slot_leaf p n 0 E N0) as [d [Hd PX]]. destruct (slot_leaf q m 1 Ej N1) as [d' [Hd' PY]]. cbn [snd] in Sm.
  pose proof (proj2 (C34_continuous _ _ _ _ _ _ _ _ _ _ _ _ _ _ HH HC Hd' Hd PY PX) Sm) as <-.
  unfold pick. cbn [fst snd]. apply slot_dof in Hd, Hd'. congruence.
Qed.
Theorem count_continuous : exists l, region_dofs f sf s = Ok l /\
  length l = length L * degree e + (if periodic then 0 else 1).
Proof.
  destruct leaf_region as [l [El [Nl Hl]]]. exists l. split; auto. destruct first_leaf as [c0 [E0 [A0 AB]]].
  set (T := (if periodic then [] else [pick (c0, 0)]) ++ map pick (list_prod L (seq 1 (degree e)))).
  transitivity (length T); [|unfold T; rewrite app_length, map_length, prod_len, seq_length; destruct periodic; cbn; lia].
  pose proof degree_dofs as DD. pose proof degree_pos as DP.
  apply same_elements_len; auto.
  - unfold T. apply nodup_app'.
    + destruct periodic; [constructor|constructor; [intros []|constructor]].
    + apply nodup_map_on; [apply nodup_prod; [eapply NoDup_map_inv, fget_leaves_nodup|apply seq_NoDup]|].
      intros [c k] [c' k'] H1 H2 E. apply in_prod_iff in H1, H2. rewrite !in_seq in *. apply pick_inj; auto; try tauto; lia.
    + intros o H1 H2. assert (EP : periodic = false /\ o = pick (c0, 0)) by (clear - H1; destruct periodic; [destruct H1|destruct H1 as [<-|[]]; auto]).
      destruct EP as [EP ->]. clear H1. apply in_map_iff in H2. destruct H2 as [[c' k'] [E H]].
      apply in_prod_iff in H. rewrite in_seq in H. destruct H as [H1 H2]. destruct c0 as [p n], c' as [q m].
      destruct (slot_leaf p n 0 (nth_error_In _ _ E0) ltac:(lia)) as [d [Hd X]]. destruct (slot_leaf q m k' H1 ltac:(lia)) as [d' [Hd' Y]].
      unfold pick in E. cbn [fst snd] in E. pose proof (proj2 (slot_dof _ _ _ _) Hd) as Z1. pose proof (proj2 (slot_dof _ _ _ _) Hd') as Z2. rewrite Z1, Z2 in E. injection E as ->.
      pose proof (proj1 (C34_continuous _ _ _ _ _ _ _ _ _ _ _ _ _ _ HH HC Hd Hd' X Y) eq_refl) as [Sm|[Sm _]]; [|congruence].
      apply In_nth_error in H1. destruct H1 as [j Ej]. destruct (leaf_pos j _ Ej) as [B1 [B2 B3]]. cbn [snd] in *.
      destruct (nodes_unit e k') as [_ U]. destruct (imap_in (n_data m) (nodeQ e k') B2 (conj (node_later k' ltac:(lia) ltac:(lia)) U)) as [P1 _].
      destruct (nodes_0 e HC) as [_ Z0]. assert (I0 : (imap (n_data n) (nodeQ e 0) == fst (n_data n))%Q) by (unfold imap; rewrite Z0; lra). lra.
  - intro o. rewrite Hl. unfold T. rewrite in_app_iff. split.
    + intros [p [n [k [d [Hp [-> Hd]]]]]]. assert (Lk : k < n_dofs D1 e).
      { destruct (HF p) as [es [Ee [Le _]]]; [apply leaf_in_sub; exists n; apply in_leaves; auto|]. destruct Hd as [es' [Ee' Hk]].
        rewrite Ee in Ee'. injection Ee' as <-. rewrite <- Le. apply nth_error_Some. congruence. }
      assert (EP : Some d = pick ((p, n), k)) by (unfold pick; cbn; symmetry; apply slot_dof; auto). rewrite EP.
      destruct k as [|k].
      * pose proof (In_nth_error _ _ Hp) as [i Ei].
        assert (C : (i <> 0 \/ periodic = true) \/ (i = 0 /\ periodic = false)) by (clear; destruct periodic; [auto|]; destruct (Nat.eq_dec i 0); auto).
        destruct C as [C|[-> C]].
        -- right. destruct (left_dof i _ Ei C) as [c' [Hc' Ec']]. rewrite Ec'. apply in_map_iff. exists (c', 1). split; auto. apply in_prod_iff. split; auto. apply in_seq. lia.
        -- left. rewrite C. left. rewrite E0 in Ei. injection Ei as <-. reflexivity.
      * right. apply in_map_iff. exists ((p, n), S k). split; auto. apply in_prod_iff. split; auto. apply in_seq. lia.
    + intros [H|H].
      * assert (EP : o = pick (c0, 0)) by (clear - H; destruct periodic; [destruct H|destruct H as [<-|[]]; auto]). rewrite EP. destruct c0 as [p n].
        destruct (slot_leaf p n 0 (nth_error_In _ _ E0) ltac:(lia)) as [d [Hd X]]. exists p, n, 0, d. split; [eapply nth_error_In; eauto|]. split; auto. unfold pick. apply slot_dof. auto.
      * apply in_map_iff in H. destruct H as [[[p n] k] [<- H]]. apply in_prod_iff in H. rewrite in_seq in H.
        destruct (slot_leaf p n k ltac:(tauto) ltac:(lia)) as [d [Hd X]]. exists p, n, k, d. split; [tauto|]. split; auto. unfold pick. apply slot_dof. auto.
Qed.
End Cont.

(** ** torn elements *)
Theorem count_torn : torn e = true -> exists l, region_dofs f sf s = Ok l /\ length l = length L * n_dofs D1 e.
Proof.
  intro HC. destruct leaf_region as [l [El [Nl Hl]]]. exists l. split; auto.
  set (T := map pick (list_prod L (seq 0 (n_dofs D1 e)))).
  transitivity (length T); [|unfold T; rewrite map_length, prod_len, seq_length; auto].
  apply same_elements_len; auto.
  - apply nodup_map_on; [apply nodup_prod; [eapply NoDup_map_inv, fget_leaves_nodup|apply seq_NoDup]|].
    intros [[p n] k] [[q m] k'] H1 H2 E. apply in_prod_iff in H1, H2. rewrite !in_seq in *. unfold pick in E. cbn [fst snd] in E.
    destruct (slot_leaf p n k ltac:(tauto) ltac:(lia)) as [d [Hd X]]. destruct (slot_leaf q m k' ltac:(tauto) ltac:(lia)) as [d' [Hd' Y]].
    pose proof (proj2 (slot_dof _ _ _ _) Hd) as Z1. pose proof (proj2 (slot_dof _ _ _ _) Hd') as Z2. rewrite Z1, Z2 in E. injection E as <-.
    destruct (C34_torn _ _ _ _ _ _ _ _ _ _ _ _ _ HH HC Hd Hd' X Y) as [P _].
    assert (PQ : p = q) by (destruct P as [P|P]; [|symmetry]; eapply leaf_prefix; try exact P; try apply H1; try apply H2).
    subst q. destruct H1 as [H1 _], H2 as [H2 _]. apply in_leaves in H1, H2. destruct H1 as [H1 _], H2 as [H2 _]. rewrite H1 in H2. injection H2 as <-. f_equal.
    destruct (history_torn _ _ _ _ _ _ HC HH) as [_ I]. destruct (I p k p k' d Z1 Z2) as [G|G]; apply heir_same in G; auto; congruence.
  - intro o. rewrite Hl. unfold T. split.
    + intros [p [n [k [d [Hp [-> Hd]]]]]]. assert (Lk : k < n_dofs D1 e).
      { destruct (HF p) as [es [Ee [Le _]]]; [apply leaf_in_sub; exists n; apply in_leaves; auto|]. destruct Hd as [es' [Ee' Hk]].
        rewrite Ee in Ee'. injection Ee' as <-. rewrite <- Le. apply nth_error_Some. congruence. }
      apply in_map_iff. exists ((p, n), k). split; [unfold pick; cbn; apply slot_dof; auto|]. apply in_prod_iff. split; auto. apply in_seq. lia.
    + intro H. apply in_map_iff in H. destruct H as [[[p n] k] [<- H]]. apply in_prod_iff in H. rewrite in_seq in H.
      destruct (slot_leaf p n k ltac:(tauto) ltac:(lia)) as [d [Hd X]]. exists p, n, k, d. split; [tauto|]. split; auto. unfold pick. apply slot_dof. auto.
Qed.
End After.
