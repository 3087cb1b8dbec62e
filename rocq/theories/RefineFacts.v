(** Forest.refine: effect on every object (C09-C11). *)
From Coq Require Import List Arith Bool Lia Permutation.
Import ListNotations.
From Verif Require Import Tree Forest SpecForest TreeFacts ForestFacts LabelFacts RootFacts PlaceFacts.
Set Implicit Arguments.

Definition antichain (l : list path) : Prop :=
  forall p q, In p l -> In q l -> prefix p q -> p = q.

(** fold of independent updates *)
Lemma refine_fold_spec {A} kid sf rf nl clean l (f f2 : forest A) :
  NoDup l -> antichain l -> (forall p, In p l -> p <> []) ->
  fold_res (refine_step kid sf rf nl clean) l f = Ok f2 ->
  (forall p n, In p l -> fget f p = Some n ->
     exists n', refine_leaf kid sf rf nl clean n = Ok n' /\ fget f2 p = Some n') /\
  (forall x, (forall p, In p l -> ~ prefix p x) -> fobs f2 x = fobs f x).
Proof.
  intros ND AC NN. revert f. induction l as [|p l IH]; intros f E; simpl in E.
  - injection E as <-. split; [intros p n []|auto].
  - inversion ND as [|? ? Hp Hl]; subst.
    unfold refine_step in E at 1. destruct (fget f p) as [n|] eqn:En; [|discriminate]. simpl in E.
    destruct (refine_leaf kid sf rf nl clean n) as [n'|] eqn:El; simpl in E; [|discriminate].
    assert (AC' : antichain l) by (intros a b Ha Hb; apply AC; right; auto).
    assert (NN' : forall p, In p l -> p <> []) by (intros; apply NN; right; auto).
    destruct (IH Hl AC' NN' _ E) as [IH1 IH2]. split.
    + intros q m [<-|Hq] Em.
      * exists n'. split; [congruence|].
        assert (Hn : forall q, In q l -> ~ prefix q p).
        { intros q Hq Hpre. assert (q = p) by (apply AC; [right|left|]; auto). subst; auto. }
        pose proof (IH2 p Hn) as O. 
        (* the whole subtree below p is untouched *)
        assert (Hsub : forall r, fobs f2 (p ++ r) = fobs (fupd p (fun _ => n') f) (p ++ r)).
        { intro r. apply IH2. intros q Hq Hpre.
          assert (Hqp : prefix p q \/ prefix q p) by (eapply prefix_linear; [apply prefix_app|exact Hpre]).
          destruct Hqp as [Hqp|Hqp].
          - assert (p = q) by (apply AC; [left|right|]; auto). subst; auto.
          - eapply Hn; eauto. }
        assert (E2 : exists m2, fget f2 p = Some m2).
        { pose proof (Hsub []) as S0. rewrite app_nil_r in S0. unfold fobs in S0.
          rewrite fget_fupd_same, En in S0. simpl in S0. destruct (fget f2 p); [eauto|discriminate]. }
        destruct E2 as [m2 E2]. rewrite E2. f_equal. apply nobs_ext. intro r.
        specialize (Hsub r). unfold fobs in Hsub. destruct p as [|i p]; [exfalso; apply (NN []); [left; auto|auto]|].
        rewrite !fget_app, E2, fget_fupd_same, En in Hsub. simpl in Hsub. exact Hsub.
      * apply IH1; auto. rewrite fget_fupd_off; auto.
        -- intro Hpre. assert (p = q) by (apply AC; [left|right|]; auto). subst; auto.
        -- intro Hpre. assert (q = p) by (apply AC; [right|left|]; auto). subst; auto.
    + intros x Hx. rewrite IH2 by (intros q Hq; apply Hx; right; auto).
      assert (Hpx : ~ prefix p x) by (apply Hx; left; auto).
      destruct (prefix_dec x p) as [[r ->]|H2].
      * destruct r as [|i r]; [exfalso; apply Hpx; rewrite app_nil_r; apply prefix_refl|].
        apply fobs_fupd_above.
      * unfold fobs. rewrite fget_fupd_off; auto.
Qed.

Lemma refine_fold_total {A} kid sf rf nl clean l (f : forest A) :
  NoDup l -> antichain l ->
  (forall p, In p l -> exists n n', fget f p = Some n /\ refine_leaf kid sf rf nl clean n = Ok n') ->
  exists f2, fold_res (refine_step kid sf rf nl clean) l f = Ok f2.
Proof.
  intros ND AC. revert f. induction l as [|p l IH]; intros f H; simpl; [eauto|].
  inversion ND as [|? ? Hp Hl]; subst.
  destruct (H p (or_introl eq_refl)) as [n [n' [En El]]].
  unfold refine_step at 1. rewrite En. simpl. rewrite El. simpl. apply IH; auto.
  - intros a b Ha Hb; apply AC; right; auto.
  - intros q Hq. destruct (H q (or_intror Hq)) as [m [m' [Em Em']]]. exists m, m'. split; auto.
    rewrite fget_fupd_off; auto.
    + intro Hpre. assert (p = q) by (apply AC; [left|right|]; auto). subst; auto.
    + intro Hpre. assert (q = p) by (apply AC; [right|left|]; auto). subst; auto.
Qed.

(** ** leaves of a rooted submesh form an antichain *)

Lemma leaf_present {A} (f : forest A) sf p :
  In p (map fst (fget_leaves f None sf BreadthFirst)) <->
  exists n, fget f p = Some n /\ is_leaf_of sf n.
Proof.
  rewrite in_map_iff. split.
  - intros [[q n] [E H]]. simpl in E; subst q. apply in_fget_leaves in H. exists n; tauto.
  - intros [n [H1 H2]]. exists (p, n). split; auto. apply in_fget_leaves. simpl; auto.
Qed.

Lemma rooted_inner {A} (f : forest A) sf p i r n c :
  submesh_rooted f sf -> p <> [] -> fget f p = Some n -> fget f (p ++ i :: r) = Some c -> fl_ok sf c ->
  fl_ok sf n /\ exists k, nth_error (n_slots n) i = Some (Some k) /\ fl_ok sf k.
Proof.
  intros HR Hp En Ec Hc.
  assert (Ek : exists k, nth_error (n_slots n) i = Some (Some k) /\ fget f (p ++ [i]) = Some k).
  { destruct p as [|x p]; [tauto|]. rewrite fget_app, En in Ec. simpl in Ec.
    destruct (nth_error (n_slots n) i) as [[k|]|] eqn:Ei; try discriminate.
    exists k; split; auto. rewrite fget_app, En. simpl; rewrite Ei; auto. }
  destruct Ek as [k [Ei Ek]].
  destruct sf as [s|]; [|split; [exact I|exists k; split; [auto|exact I]]].
  destruct HR as [C1 [C2 C3]]. cbn [fl_ok] in *. rewrite (is_marked_at _ _ s Ec) in Hc.
  split.
  - rewrite (is_marked_at _ _ s En). apply (C2 p i r); auto.
  - exists k; split; auto. rewrite (is_marked_at _ _ s Ek). destruct r as [|j r]; auto.
    apply (C2 (p ++ [i]) j r).
    + destruct p; discriminate.
    + rewrite <- app_assoc; auto.
Qed.

Lemma leaves_antichain {A} (f : forest A) sf :
  submesh_rooted f sf -> antichain (map fst (fget_leaves f None sf BreadthFirst)).
Proof.
  intros HR p q Hp Hq [r ->]. apply leaf_present in Hp. destruct Hp as [n [En [Ln1 Ln2]]].
  apply leaf_present in Hq. destruct Hq as [c [Ec [Lc1 Lc2]]].
  destruct r as [|i r]; [rewrite app_nil_r; auto|]. exfalso.
  assert (Hpn : p <> []) by (intros ->; discriminate).
  destruct (@rooted_inner A f sf p i r n c HR Hpn En Ec Lc1) as [_ [k [Ek Hk]]].
  eapply Ln2; eauto.
Qed.
Lemma leaves_nonnil {A} (f : forest A) sf p :
  In p (map fst (fget_leaves f None sf BreadthFirst)) -> p <> [].
Proof. intro H. apply leaf_present in H. destruct H as [n [E _]]. intros ->. discriminate. Qed.

(** every node of a rooted submesh has a leaf of the submesh below it *)
Lemma leaf_below {A} (f : forest A) sf p n :
  p <> [] -> fget f p = Some n -> fl_ok sf n ->
  exists r c, fget f (p ++ r) = Some c /\ is_leaf_of sf c.
Proof.
  revert p. induction n as [m d ks IH] using node_ind'; intros p Hp En Hn.
  destruct (has_children (Node m d ks) sf) eqn:E.
  - apply has_children_fl in E. destruct E as [i [k [Ei Hk]]]. simpl in Ei.
    destruct (IH i k Ei (p ++ [i])) as [r [c [Ec Lc]]]; auto.
    + destruct p; discriminate.
    + rewrite fget_snoc, En by auto. simpl; rewrite Ei; auto.
    + exists (i :: r), c. rewrite <- app_assoc in Ec. auto.
  - exists [], (Node m d ks). rewrite app_nil_r. split; auto. split; auto.
    rewrite has_children_false in E; auto.
Qed.

(** ** one leaf *)
Definition lab_of (sf nl : option flag) : option flag := match nl with Some l => Some l | None => sf end.
Definition selb {A} (rf nl : option flag) (n : node A) : bool :=
  match rf with
  | None => true
  | Some r => has_label r n || match nl with Some l => r =? l | None => false end
  end.
Definition lab_child {A} (o : option flag) (n : node A) : node A :=
  match o with None => n | Some l => mark_here l n end.

Lemma label_kids_eq {A} sf nl (n : node A) : label_kids sf nl n = map_kids (lab_child (lab_of sf nl)) n.
Proof.
  unfold label_kids, lab_of, lab_child. destruct nl; auto. destruct sf; auto.
  destruct n as [m d ks]. simpl. f_equal. rewrite <- (map_id ks) at 1. apply map_ext. intros [k|]; auto.
Qed.

Definition newlabels (rf nl : option flag) (clean sel : bool) (l : list flag) : list flag :=
  let l1 := match nl with Some g => add_flag g l | None => l end in
  match rf with Some r => if sel && clean then del_flag r l1 else l1 | None => l1 end.

Lemma refine_leaf_spec {A} (kid : nat -> nat -> A -> A) sf rf nl clean (n n' : node A) :
  refine_leaf kid sf rf nl clean n = Ok n' ->
  labels n' = newlabels rf nl clean (selb rf nl n) (labels n) /\
  n_data n' = n_data n /\
  m_depth (n_meta n') = m_depth (n_meta n) /\ m_addr (n_meta n') = m_addr (n_meta n) /\
  m_pos (n_meta n') = m_pos (n_meta n) /\ m_regular (n_meta n') = m_regular (n_meta n) /\
  (selb rf nl n = false -> n_slots n' = n_slots n /\ m_type (n_meta n') = m_type (n_meta n)) /\
  (selb rf nl n = true -> has_children n None = true ->
     m_type (n_meta n') = m_type (n_meta n) /\
     n_slots n' = map (option_map (lab_child (lab_of sf nl))) (n_slots n)) /\
  (selb rf nl n = true -> has_children n None = false ->
     m_regular (n_meta n) = true /\
     m_type (n_meta n') = m_type (match n_slots n with [] => n_meta n | _ => promote (n_meta n) end) /\
     n_slots n' = map (fun i => Some (lab_child (lab_of sf nl)
                     (new_child (n_meta n) (n_children n) i (kid i (n_children n) (n_data n)))))
                     (seq 0 (n_children n))).
Proof.
  unfold refine_leaf. set (n1 := match nl with Some l => mark_here l n | None => n end).
  assert (F : n_slots n1 = n_slots n /\ n_data n1 = n_data n /\ m_type (n_meta n1) = m_type (n_meta n) /\
     m_depth (n_meta n1) = m_depth (n_meta n) /\ m_addr (n_meta n1) = m_addr (n_meta n) /\
     m_pos (n_meta n1) = m_pos (n_meta n) /\ m_regular (n_meta n1) = m_regular (n_meta n) /\
     labels n1 = match nl with Some g => add_flag g (labels n) | None => labels n end).
  { unfold n1. destruct nl; destruct n; simpl; auto 10. }
  destruct F as [F1 [F2 [F3 [F4 [F5 [F6 [F7 F8]]]]]]].
  assert (Hsel : (match rf with Some _ => negb (is_marked n1 rf) | None => false end) = negb (selb rf nl n)).
  { unfold selb. destruct rf as [r|]; auto. rewrite is_marked_some. unfold has_label. rewrite F8.
    destruct nl as [l|]; [|rewrite orb_false_r; auto]. rewrite mem_add. rewrite orb_comm; auto. }
  rewrite Hsel. destruct (selb rf nl n) eqn:Es; cbn [negb].
  - assert (Hc : has_children n1 None = has_children n None) by (unfold has_children; rewrite F1; auto).
    rewrite Hc.
    set (fin := fun n2 : node A => match rf with Some _ => if clean then unmark_here rf (label_kids sf nl n2)
                  else label_kids sf nl n2 | None => label_kids sf nl n2 end).
    assert (HF : forall n2, n_slots (fin n2) = map (option_map (lab_child (lab_of sf nl))) (n_slots n2) /\
       n_data (fin n2) = n_data n2 /\ m_type (n_meta (fin n2)) = m_type (n_meta n2) /\
       m_depth (n_meta (fin n2)) = m_depth (n_meta n2) /\ m_addr (n_meta (fin n2)) = m_addr (n_meta n2) /\
       m_pos (n_meta (fin n2)) = m_pos (n_meta n2) /\ m_regular (n_meta (fin n2)) = m_regular (n_meta n2) /\
       labels (fin n2) = match rf with Some r => if clean then del_flag r (labels n2) else labels n2
                         | None => labels n2 end).
    { intro n2. unfold fin. rewrite label_kids_eq. destruct n2 as [m2 d2 ks2].
      destruct rf as [r|]; [destruct clean|]; simpl; auto 10. }
    destruct (has_children n None) eqn:Eh; simpl.
    + intro E. assert (E' : fin n1 = n') by (injection E as E; exact E). clear E. subst n'.
      destruct (HF n1) as [G1 [G2 [G3 [G4 [G5 [G6 [G7 G8]]]]]]].
      split; [|repeat split; try congruence].
      rewrite G8, F8. unfold newlabels. destruct rf; auto.
    + destruct (split kid n1) as [n2|] eqn:Esp; simpl; [|discriminate].
      intro E. assert (E' : fin n2 = n') by (injection E as E; exact E). clear E. subst n'.
      destruct (HF n2) as [G1 [G2 [G3 [G4 [G5 [G6 [G7 G8]]]]]]].
      destruct n1 as [m1 d1 ks1]. cbn [n_slots n_data n_meta] in *. simpl in Esp.
      destruct (m_regular m1) eqn:Er; [|destruct ks1; discriminate].
      injection Esp as <-. cbn [n_slots n_data n_meta] in *.
      destruct (promote_fields m1) as [P1 [P2 [P3 [P4 [P5 P6]]]]].
      destruct (promote_fields (n_meta n)) as [Q1 [Q2 [Q3 [Q4 [Q5 Q6]]]]].
      assert (HH : forall (X : Type) (h : meta -> X), h m1 = h (promote m1) -> h (match ks1 with [] => m1 | _ => promote m1 end) = h m1).
      { intros X h Hh. destruct ks1; auto. }
      split; [|split; [|split; [|split; [|split; [|split; [|split; [|split]]]]]]]; try discriminate.
      * rewrite G8. unfold labels in *; cbn [n_meta] in *. rewrite (HH _ m_flags) by auto.
        rewrite F8. unfold newlabels. destruct rf; auto.
      * congruence.
      * rewrite G4, (HH _ m_depth) by auto. congruence.
      * rewrite G5, (HH _ m_addr) by auto. congruence.
      * rewrite G6, (HH _ m_pos) by auto. congruence.
      * rewrite G7, (HH _ m_regular) by auto. congruence.
      * intros _ _. split; [congruence|]. split.
        -- rewrite G3, <- F1. destruct ks1; auto. rewrite P6, Q6, F3; auto.
        -- rewrite G1, map_map. unfold n_children. rewrite <- F1, <- F2. apply map_ext. intro i. simpl.
           unfold new_child. rewrite F4, F5. auto.
  - intro E. assert (E' : n1 = n') by (injection E as E; exact E). clear E. subst n'.
    split; [|repeat split; try congruence; intros; discriminate].
    rewrite F8. unfold newlabels. destruct rf; auto.
Qed.

Lemma refine_leaf_total {A} (kid : nat -> nat -> A -> A) sf rf nl clean (n : node A) :
  m_regular (n_meta n) = true -> exists n', refine_leaf kid sf rf nl clean n = Ok n'.
Proof.
  intro Hr. unfold refine_leaf.
  set (n1 := match nl with Some l => mark_here l n | None => n end).
  assert (Hr1 : m_regular (n_meta n1) = true) by (unfold n1; destruct nl; destruct n; auto).
  destruct (match rf with Some _ => negb (is_marked n1 rf) | None => false end); [eauto|].
  destruct (has_children n1 None); simpl; [eauto|].
  destruct n1 as [m1 d1 ks1]. simpl in *. rewrite Hr1. simpl. eauto.
Qed.

(** ** the loop of refine, before the final rooting *)
Section Loop.
Context {A : Type}.
Variable kid : nat -> nat -> A -> A.
Variables (sf rf nl : option flag) (clean : bool).
Variables f f2 : forest A.
Hypothesis HR : submesh_rooted f sf.
Let L := map fst (fget_leaves f None sf BreadthFirst).
Hypothesis HE : fold_res (refine_step kid sf rf nl clean) L f = Ok f2.

Lemma loop_leaf p n : fget f p = Some n -> is_leaf_of sf n ->
  exists n', refine_leaf kid sf rf nl clean n = Ok n' /\ fget f2 p = Some n'.
Proof.
  intros En Ln. destruct (@refine_fold_spec A kid sf rf nl clean L f f2) as [H1 _]; auto.
  - apply fget_leaves_nodup.
  - apply leaves_antichain; auto.
  - intro q; apply leaves_nonnil.
  - apply H1; auto. apply leaf_present; eauto.
Qed.
Lemma loop_other x : (forall p n, fget f p = Some n -> is_leaf_of sf n -> ~ prefix p x) ->
  fobs f2 x = fobs f x.
Proof.
  intro Hx. destruct (@refine_fold_spec A kid sf rf nl clean L f f2) as [_ H2]; auto.
  - apply fget_leaves_nodup.
  - apply leaves_antichain; auto.
  - intro q; apply leaves_nonnil.
  - apply H2. intros p Hp. apply leaf_present in Hp. destruct Hp as [n [En Ln]]. eapply Hx; eauto.
Qed.

Definition leafp (p : path) : Prop := exists n, fget f p = Some n /\ is_leaf_of sf n.
Definition selp (p : path) : Prop := exists n, fget f p = Some n /\ is_leaf_of sf n /\ selb rf nl n = true.

Lemma leafp_dec x : {p | leafp p /\ prefix p x} + {forall p, leafp p -> ~ prefix p x}.
Proof.
  destruct (find (fun p => prefixb p x) L) as [p|] eqn:E.
  - left. exists p. apply find_some in E. destruct E as [E1 E2].
    apply prefixb_true in E2. split; auto. apply leaf_present; auto.
  - right. intros p Hp Hx. apply leaf_present in Hp.
    pose proof (find_none _ _ E p Hp) as F. cbv beta in F. apply prefixb_true in Hx. congruence.
Qed.
Lemma leafp_nonnil p : leafp p -> p <> [].
Proof. intros [n [E _]] ->. discriminate. Qed.
Lemma leafp_anti p q : leafp p -> leafp q -> prefix p q -> p = q.
Proof. intros Hp Hq. apply (@leaves_antichain A f sf HR); apply leaf_present; auto. Qed.

(** which objects exist afterwards *)
Lemma loop_present x :
  present f2 x = true <->
  present f x = true \/
  exists p n i, fget f p = Some n /\ is_leaf_of sf n /\ selb rf nl n = true /\
    has_children n None = false /\ i < n_children n /\ x = p ++ [i].
Proof.
  destruct (leafp_dec x) as [[p [Hp [r ->]]]|Hx].
  - pose proof (leafp_nonnil Hp) as Hnn. destruct Hp as [n [En Ln]]. destruct (loop_leaf _ En Ln) as [n' [El En']].
    pose proof (refine_leaf_spec _ _ _ _ _ _ El) as [_ [_ [_ [_ [_ [_ [S1 [S2 S3]]]]]]]].
    unfold present. destruct p as [|y p]; [tauto|]. rewrite !fget_app, En, En'.
    assert (Huniq : forall q m, fget f q = Some m -> is_leaf_of sf m -> prefix q ((y :: p) ++ r) -> q = y :: p).
    { intros q m Eq Lq Hq. assert (Hor : prefix q (y :: p) \/ prefix (y :: p) q)
        by (eapply prefix_linear; [exact Hq|apply prefix_app]).
      destruct Hor as [H|H]; [|symmetry]; apply leafp_anti; auto; eexists; eauto. }
    destruct r as [|i r].
    + simpl. split; auto.
    + simpl. destruct (selb rf nl n) eqn:Es.
      * destruct (has_children n None) eqn:Eh.
        -- destruct (S2 eq_refl eq_refl) as [_ S]. rewrite S, nth_error_map.
           assert (G : forall k : node A, match nget (lab_child (lab_of sf nl) k) r with Some _ => true | None => false end
                   = match nget k r with Some _ => true | None => false end).
           { intro k. unfold lab_child. destruct (lab_of sf nl); auto. destruct r; auto.
             simpl. rewrite slots_mark_here; auto. }
           destruct (nth_error (n_slots n) i) as [[k|]|]; simpl; rewrite ?G; split; auto.
           ++ intros [H|[q [m [j [Eq [Lq [_ [Hc [_ Ex]]]]]]]]]; auto.
              assert (q = y :: p) by (eapply Huniq; eauto; exists [j]; exact Ex). subst q. congruence.
           ++ intros [H|[q [m [j [Eq [Lq [_ [Hc [_ Ex]]]]]]]]]; auto.
              assert (q = y :: p) by (eapply Huniq; eauto; exists [j]; exact Ex). subst q. congruence.
           ++ intros [H|[q [m [j [Eq [Lq [_ [Hc [_ Ex]]]]]]]]]; auto.
              assert (q = y :: p) by (eapply Huniq; eauto; exists [j]; exact Ex). subst q. congruence.
        -- destruct (S3 eq_refl eq_refl) as [_ [_ S]]. rewrite S, nth_map_seq.
           assert (N0 : match nth_error (n_slots n) i with Some (Some k) => nget k r | _ => None end = None).
           { destruct (nth_error (n_slots n) i) as [[k|]|] eqn:Ei; auto.
             rewrite has_children_false in Eh. exfalso; eapply Eh; eauto. exact I. }
           rewrite N0. destruct (Nat.ltb_spec i (n_children n)) as [Li|Li].
           ++ destruct r as [|j r].
              ** simpl. split; auto. intros _. right. exists (y :: p), n, i. repeat split; auto.
                 { exact (proj1 Ln). } { exact (proj2 Ln). }
              ** assert (N1 : nget (lab_child (lab_of sf nl) (new_child (n_meta n) (n_children n) i
                    (kid i (n_children n) (n_data n)))) (j :: r) = None).
                 { unfold lab_child, new_child. destruct (lab_of sf nl); simpl;
                   destruct (nth_error (repeat None (n_children n)) j) as [[c|]|] eqn:Ej; auto;
                   exfalso; eapply nth_repeat_none; eauto. }
                 rewrite N1. split; [discriminate|].
                 intros [H|[q [m [j' [Eq [Lq [_ [Hc [_ Ex]]]]]]]]]; [discriminate|].
                 assert (q = y :: p) by (eapply Huniq; eauto; exists [j']; exact Ex). subst q.
                 simpl in Ex. injection Ex as Ex. apply app_inv_head in Ex. discriminate.
           ++ split; [discriminate|].
              intros [H|[q [m [j' [Eq [Lq [_ [Hc [Lj Ex]]]]]]]]]; [discriminate|].
              assert (q = y :: p) by (eapply Huniq; eauto; exists [j']; exact Ex). subst q.
              simpl in Ex. injection Ex as Ex. apply app_inv_head in Ex. injection Ex as -> ->.
              assert (m = n) by congruence. subst m. lia.
      * destruct (S1 eq_refl) as [S _]. rewrite S. split; auto.
        intros [H|[q [m [j [Eq [Lq [Hs [Hc [_ Ex]]]]]]]]]; auto.
        assert (q = y :: p) by (eapply Huniq; eauto; exists [j]; exact Ex). subst q. congruence.
  - assert (O : fobs f2 x = fobs f x).
    { apply loop_other. intros p n En Ln. apply Hx. exists n; auto. }
    unfold present. unfold fobs in O.
    assert (E : match fget f2 x with Some _ => true | None => false end = match fget f x with Some _ => true | None => false end).
    { destruct (fget f2 x), (fget f x); simpl in O; auto; discriminate. }
    rewrite E. split; auto. intros [H|[p [n [i [En [Ln [_ [_ [_ ->]]]]]]]]]; auto.
    exfalso. apply (Hx p); [exists n; auto|apply prefix_app].
Qed.

(** labels afterwards *)
Lemma loop_marked x g : marked_at f2 x g = true <->
  (exists n, fget f x = Some n /\ is_leaf_of sf n /\
     mem_flag g (newlabels rf nl clean (selb rf nl n) (labels n)) = true) \/
  (~ leafp x /\ marked_at f x g = true) \/
  (exists p i, selp p /\ x = p ++ [i] /\ present f2 x = true /\ lab_of sf nl = Some g).
Proof.
  destruct (leafp_dec x) as [[p [Hp [r ->]]]|Hx].
  - pose proof Hp as Hlp. pose proof (leafp_nonnil Hp) as Hnn. destruct Hp as [n [En Ln]].
    destruct (loop_leaf _ En Ln) as [n' [El En']].
    pose proof (refine_leaf_spec _ _ _ _ _ _ El) as [Sl [_ [_ [_ [_ [_ [S1 [S2 S3]]]]]]]].
    assert (Hl1 : forall i r, ~ leafp (p ++ i :: r)).
    { intros i r' H. assert (E : p = p ++ i :: r') by (apply leafp_anti; auto; apply prefix_app).
      rewrite <- (app_nil_r p) in E at 1. apply app_inv_head in E. discriminate. }
    assert (Hsp : selp p -> selb rf nl n = true).
    { intros [m [Em [_ Hs]]]. congruence. }
    destruct r as [|i r].
    + rewrite app_nil_r. unfold marked_at. rewrite En'. rewrite is_marked_some. unfold has_label. rewrite Sl. split.
      * intro H. left. exists n; auto.
      * intros [[m [Em [_ H]]]|[[H _]|[q [j [Hq [-> _]]]]]].
        -- congruence.
        -- tauto.
        -- exfalso. destruct Hq as [m [Em [Lm _]]]. apply (leafp_anti (p := q)) in Hlp; [|exists m; auto|apply prefix_app].
           rewrite <- (app_nil_r q) in Hlp at 1. apply app_inv_head in Hlp. discriminate.
    + assert (Hchild : forall q j, selp q -> p ++ i :: r = q ++ [j] -> q = p /\ r = []).
      { intros q j [m [Em [Lm _]]] Eq.
        assert (Hor : prefix p q \/ prefix q p).
        { eapply prefix_linear; [exists (i :: r); reflexivity|exists [j]; exact Eq]. }
        assert (q = p). { destruct Hor as [H|H]; [symmetry|]; apply leafp_anti; auto; exists m; auto. }
        subst q. split; auto. apply app_inv_head in Eq. congruence. }
      assert (Enf : fget f (p ++ i :: r) = match nth_error (n_slots n) i with Some (Some k) => nget k r | _ => None end).
      { destruct p as [|y p]; [tauto|]. rewrite fget_app, En; auto. }
      assert (Enf2 : fget f2 (p ++ i :: r) = match nth_error (n_slots n') i with Some (Some k) => nget k r | _ => None end).
      { destruct p as [|y p]; [tauto|]. rewrite fget_app, En'; auto. }
      split.
      * unfold marked_at at 1. rewrite Enf2.
        destruct (selb rf nl n) eqn:Es.
        -- destruct (has_children n None) eqn:Eh.
           ++ destruct (S2 eq_refl eq_refl) as [_ S]. rewrite S, nth_error_map in *.
              destruct (nth_error (n_slots n) i) as [[k|]|] eqn:Ei; simpl; try discriminate.
              destruct r as [|j r].
              ** simpl. intro H. unfold lab_child in H. destruct (lab_of sf nl) as [l|] eqn:Elab.
                 --- fold (is_marked (mark_here l k) (Some g)) in H. rewrite is_marked_some in H.
                     unfold has_label in H. rewrite labels_mark_here, mem_add in H.
                     destruct (Nat.eqb_spec g l) as [->|Hgl].
                     +++ right; right. exists p, i. repeat split; auto.
                         { exists n; auto. }
                         { unfold present. rewrite Enf2. simpl. auto. }
                     +++ right; left. split; [apply Hl1|]. unfold marked_at. rewrite Enf. simpl in *. exact H.
                 --- right; left. split; [apply Hl1|]. unfold marked_at. rewrite Enf. simpl in *. exact H.
              ** intro H. right; left. split; [apply Hl1|]. unfold marked_at. rewrite Enf.
                 assert (G : nget (lab_child (lab_of sf nl) k) (j :: r) = nget k (j :: r)).
                 { unfold lab_child. destruct (lab_of sf nl); auto. simpl. rewrite slots_mark_here; auto. }
                 rewrite G in H; auto.
           ++ destruct (S3 eq_refl eq_refl) as [_ [_ S]]. rewrite S, nth_map_seq in *.
              destruct (i <? n_children n); simpl; try discriminate.
              destruct r as [|j r].
              ** simpl. intro H. unfold lab_child in H. destruct (lab_of sf nl) as [l|] eqn:Elab; simpl in H.
                 --- rewrite orb_false_r in H. apply Nat.eqb_eq in H. subst l.
                     right; right. exists p, i. repeat split; auto.
                     { exists n; auto. }
                     { unfold present. rewrite Enf2. simpl. auto. }
                 --- discriminate.
              ** intro H. exfalso. revert H.
                 assert (N1 : nget (lab_child (lab_of sf nl) (new_child (n_meta n) (n_children n) i
                    (kid i (n_children n) (n_data n)))) (j :: r) = None).
                 { unfold lab_child, new_child. destruct (lab_of sf nl); simpl;
                   destruct (nth_error (repeat None (n_children n)) j) as [[c|]|] eqn:Ej; auto;
                   exfalso; eapply nth_repeat_none; eauto. }
                 rewrite N1. discriminate.
        -- destruct (S1 eq_refl) as [S _]. rewrite S. intro H. right; left. split; [apply Hl1|].
           unfold marked_at. rewrite Enf; auto.
      * intros [[m [Em [Lm _]]]|[[_ H]|[q [j [Hq [Eq [HP Hlab]]]]]]].
        -- exfalso. apply (Hl1 i r). exists m; auto.
        -- unfold marked_at in *. rewrite Enf in H. rewrite Enf2.
           destruct (nth_error (n_slots n) i) as [[k|]|] eqn:Ei; try discriminate.
           destruct (selb rf nl n) eqn:Es.
           ++ assert (Eh : has_children n None = true) by (apply has_children_fl; exists i, k; split; [auto|exact I]).
              destruct (S2 eq_refl Eh) as [_ S]. rewrite S, nth_error_map, Ei. simpl.
              destruct r as [|j r].
              ** simpl in *. unfold lab_child. destruct (lab_of sf nl); auto.
                 fold (is_marked (mark_here f0 k) (Some g)). rewrite is_marked_some. unfold has_label.
                 rewrite labels_mark_here, mem_add. fold (mem_flag g (labels k)) in H. unfold labels.
                 rewrite H. apply orb_true_r.
              ** assert (G : nget (lab_child (lab_of sf nl) k) (j :: r) = nget k (j :: r)).
                 { unfold lab_child. destruct (lab_of sf nl); auto. simpl. rewrite slots_mark_here; auto. }
                 rewrite G; auto.
           ++ destruct (S1 eq_refl) as [S _]. rewrite S, Ei; auto.
        -- destruct (Hchild q j Hq Eq) as [-> ->]. specialize (Hsp Hq). unfold marked_at. rewrite Enf2.
           unfold present in HP. rewrite Enf2 in HP.
           destruct (has_children n None) eqn:Eh.
           ++ destruct (S2 Hsp eq_refl) as [_ S]. rewrite S, nth_error_map in *.
              destruct (nth_error (n_slots n) i) as [[k|]|]; simpl in *; try discriminate.
              rewrite Hlab. simpl. fold (is_marked (mark_here g k) (Some g)). rewrite is_marked_some. unfold has_label.
              rewrite labels_mark_here, mem_add, Nat.eqb_refl; auto.
           ++ destruct (S3 Hsp eq_refl) as [_ [_ S]]. rewrite S, nth_map_seq in *.
              destruct (i <? n_children n); simpl in *; try discriminate.
              rewrite Hlab. simpl. rewrite Nat.eqb_refl; auto.
  - assert (O : fobs f2 x = fobs f x).
    { apply loop_other. intros p n En Ln. apply Hx. exists n; auto. }
    apply fobs_inv in O.
    assert (E : marked_at f2 x g = marked_at f x g).
    { unfold marked_at. destruct (fget f x), (fget f2 x); try tauto. rewrite !is_marked_some.
      unfold has_label. destruct O as [_ ->]; auto. }
    assert (Hnl : ~ leafp x) by (intro H; apply (Hx x H), prefix_refl).
    rewrite E. split; auto. intros [[n [En [Ln _]]]|[[_ H]|[p [i [Hp [-> _]]]]]]; auto.
    + exfalso; apply Hnl; exists n; auto.
    + exfalso. apply (Hx p); [|apply prefix_app]. destruct Hp as [n [En [Ln _]]]. exists n; auto.
Qed.
End Loop.
