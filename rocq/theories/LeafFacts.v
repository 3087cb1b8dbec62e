(** Leaves of a rooted submesh of a generated forest, generically in the data. *)
From Coq Require Import List Arith Bool Lia QArith.
Import ListNotations.
From Verif Require Import Tree Forest SpecForest TreeFacts ForestFacts LabelFacts RootFacts History PlaceFacts
  RefineFacts GenFacts Geom IntervalFacts.
Close Scope Q_scope.

Section Leaf.
Context {A : Type}.
Variable kid : nat -> nat -> A -> A.
Context (f : forest A) (sf : option flag).
Hypothesis HG : fgen kid f.
Hypothesis HR : submesh_rooted f sf.

Lemma leaf_empty p (n : node A) : (forall r c, nget n r = Some c -> ~ fl_ok sf c) -> leaves_of sf p n = [].
Proof.
  intro H. unfold leaves_of.
  destruct (filter _ _) as [|[q c] l] eqn:E; auto. exfalso.
  assert (Hi : In (q, c) ((q, c) :: l)) by (left; auto). rewrite <- E in Hi. apply filter_In in Hi. destruct Hi as [Hi _].
  apply keep_in in Hi. destruct Hi as [Hi Hk]. apply in_preorder in Hi. destruct Hi as [r [_ Er]].
  apply (H r c Er). exact Hk.
Qed.
Lemma fget_kid p n i k : fget f p = Some n -> nth_error (n_slots n) i = Some (Some k) -> fget f (p ++ [i]) = Some k.
Proof.
  intros E Ei. destruct p as [|a p]; [discriminate|]. rewrite fget_app, E. simpl. rewrite Ei; auto.
Qed.
(** a node of the submesh with a child in the submesh has all its children in it *)
Lemma sub_family p n : fget f p = Some n -> has_children n sf = true ->
  0 < n_children n /\ forall j, j < n_children n -> exists k, nth_error (n_slots n) j = Some (Some k) /\ fl_ok sf k /\
     n_data k = kid j (n_children n) (n_data n) /\ n_children k = n_children n.
Proof.
  intros E Hc. pose proof (fgen_fget p HG E) as G. apply Gen_inv in G. destruct G as [_ [G2 G3]].
  assert (Hp : p <> []) by (intros ->; discriminate).
  apply has_children_fl in Hc. destruct Hc as [i0 [k0 [Ei0 F0]]].
  split. { assert (i0 < n_children n) by (apply nth_error_Some; congruence). lia. }
  intros j Hj. destruct (nth_error (n_slots n) j) as [[k|]|] eqn:Ej.
  - exists k. split; auto. destruct (G3 j k Ej) as [D1 [D2 _]]. split; auto.
    destruct sf as [s|]; [|exact I]. destruct HR as [_ [_ HS]].
    specialize (HS p i0 j Hp). unfold marked_at in HS. rewrite (fget_kid p n i0 k0 E Ei0), (fget_kid p n j k E Ej) in HS.
    apply HS; auto. unfold present. rewrite (fget_kid p n j k E Ej); auto.
  - exfalso. eapply (G2 i0 j k0); eauto.
  - apply nth_error_None in Ej. unfold n_children in Hj. lia.
Qed.
Lemma leaves_leaf p n : fget f p = Some n -> fl_ok sf n -> has_children n sf = false -> leaves_of sf p n = [(p, n)].
Proof.
  intros E F Hc. rewrite leaves_of_eq, Hc by auto.
  assert (Hp : p <> []) by (intros ->; discriminate).
  replace (flat_map _ (kids_of p n)) with (@nil (path * node A)); auto.
  symmetry. rewrite has_children_false in Hc.
  assert (Z : forall c, In c (kids_of p n) -> leaves_of sf (fst c) (snd c) = []).
  { intros [q k] Hk. apply in_kids_of in Hk. destruct Hk as [i [-> Ei]]. cbn [fst snd].
    apply leaf_empty. intros r c Er Fc.
    destruct (@rooted_inner A f sf p i r n c) as [_ [k' [Ek' Fk']]]; auto.
    - replace (p ++ i :: r) with ((p ++ [i]) ++ r) by (rewrite <- app_assoc; auto).
      destruct p as [|a p]; [congruence|]. pose proof (fget_kid _ n i k E Ei) as HK. change ((a :: p) ++ [i]) with (a :: (p ++ [i])) in *.
      rewrite fget_app, HK. auto.
    - eapply Hc; eauto. }
  induction (kids_of p n) as [|c l IHl]; simpl; auto. rewrite Z by (left; auto). apply IHl. intros; apply Z; right; auto.
Qed.
Lemma leaves_branch p n : fget f p = Some n -> fl_ok sf n -> has_children n sf = true ->
  exists ks, n_slots n = map Some ks /\ 0 < length ks /\
    (forall i k, nth_error ks i = Some k -> fl_ok sf k /\ fget f (p ++ [i]) = Some k /\
        n_data k = kid i (length ks) (n_data n) /\ n_children k = length ks) /\
    leaves_of sf p n = flat_map (fun ik => leaves_of sf (p ++ [fst ik]) (snd ik)) (index_from 0 ks).
Proof.
  intros E F Hc. destruct (sub_family p n E Hc) as [H0 H1].
  assert (Hks : exists ks, n_slots n = map Some ks).
  { assert (H2 : forall j, j < length (n_slots n) -> exists k, nth_error (n_slots n) j = Some (Some k))
      by (intros j Hj; destruct (H1 j Hj) as [k [Hk _]]; eauto).
    clear - H2. rename H2 into H1. induction (n_slots n) as [|o l IH]; [exists []; auto|].
    destruct IH as [ks Ek].
    - intros j Hj. apply (H1 (S j)). simpl; lia.
    - destruct (H1 0) as [k Ek0]; [simpl; lia|]. simpl in Ek0. injection Ek0 as ->. exists (k :: ks). simpl. congruence. }
  destruct Hks as [ks Eks]. exists ks. split; auto.
  assert (L : n_children n = length ks) by (unfold n_children; rewrite Eks, map_length; auto).
  split; [lia|]. split.
  - intros i k Ei. destruct (H1 i) as [k' [A1 [A2 [A3 A4]]]].
    { rewrite L. apply nth_error_Some. congruence. }
    assert (Ek : nth_error (n_slots n) i = Some (Some k)) by (rewrite Eks, nth_error_map, Ei; auto).
    assert (k' = k) by congruence. subst k'. rewrite <- L. split; auto. split; auto. eapply fget_kid; eauto.
  - rewrite leaves_of_eq, Hc by auto. simpl app. unfold kids_of. rewrite Eks.
    clear. generalize 0. induction ks as [|k ks IH]; intro j; simpl; auto. f_equal. apply IH.
Qed.
End Leaf.
