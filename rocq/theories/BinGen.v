(** * Binning points in a tree of cells (facts for C89): as in Prop_Bin.v, for any tree whose cells
    are covered by their children *)
From Coq Require Import List Arith Bool Lia Permutation QArith.
From Verif Require Import Tree Forest SpecForest TreeFacts ForestFacts LabelFacts RootFacts History PlaceFacts GenFacts Geom SpecGeom BinFacts.
From Verif Require Prop_Bin.
Import ListNotations.
Open Scope Q_scope.

Section BinGen.
Context {A P : Type}.
Variable inside : A -> P -> bool.
Variable f : forest A.
Variable sf : option flag.
Hypothesis HR : submesh_rooted f sf.
Hypothesis bin_cover : forall p n x, fget f p = Some n -> fl_ok sf n -> has_children n sf = true -> inside (n_data n) x = true ->
  exists i k, nth_error (n_slots n) i = Some (Some k) /\ fl_ok sf k /\ inside (n_data k) x = true.

Lemma bin_gen (pts : list P) :
  ((exists x, In x pts /\ forall t, In t f -> inside (n_data t) x = false) /\
   mesh_bin_points inside sf f pts = Err AssertionError) \/
  ((forall x, In x pts -> exists t, In t f /\ inside (n_data t) x = true) /\
   exists b, mesh_bin_points inside sf f pts = Ok b /\
     Permutation (flat_map snd b) (seq 0 (length pts)) /\ NoDup (map fst b) /\
     forall q idx, In (q, idx) b -> idx <> [] /\ exists c, fget f q = Some c /\ is_leaf_of sf c /\
        forall j, In j idx -> exists x, nth_error pts j = Some x /\ inside (n_data c) x = true).
Proof.
  assert (Hr : forall i t, nth_error f i = Some t -> fl_ok sf t).
  { intros i t E. destruct sf as [s|]; [|exact I]. destruct HR as [H0 _].
    assert (Ef : fget f [i] = Some t) by (simpl; rewrite E; auto).
    unfold fl_ok. rewrite (@is_marked_at A f [i] t s Ef). apply H0. unfold present. rewrite Ef; auto. }
  assert (Hroots : forall q n, In (q, n) (roots f) <-> exists i, q = [i] /\ nth_error f i = Some n).
  { intros q n. unfold roots. rewrite in_map_iff. split.
    - intros [[i t] [E H]]. injection E as <- <-. exists i. split; auto.
      apply in_index_from in H. destruct H as [_ H]. rewrite Nat.sub_0_r in H. exact H.
    - intros [i [-> E]]. exists (i, n). split; auto. apply in_index_from. rewrite Nat.sub_0_r. split; [lia|auto]. }
  assert (Hc : exists rs, fget_children f sf false = Some rs /\ forall q n, In (q, n) rs <-> exists i, q = [i] /\ nth_error f i = Some n).
  { unfold fget_children. destruct sf as [s|].
    - eexists. split; [reflexivity|]. intros q n. rewrite filter_In, Hroots. cbn [snd]. split; [tauto|].
      intros H. split; auto. destruct H as [i [_ E]]. exact (Hr i n E).
    - eexists. split; [reflexivity|]. exact Hroots. }
  assert (Hnd : forall rs, fget_children f sf false = Some rs -> NoDup (map fst rs)).
  { assert (N : NoDup (map fst (roots f))).
    { unfold roots. rewrite map_map. cbn [fst].
      replace (map _ (index_from 0 f)) with (map (fun i : nat => [i]) (map fst (index_from 0 f))) by (rewrite map_map; reflexivity).
      apply FinFun.Injective_map_NoDup; [intros a b E; congruence|]. apply Prop_Bin.nodup_index_from. }

    intros rs. unfold fget_children. destruct sf as [s|]; intro E; injection E as <-; auto.
    clear - N. induction (roots f) as [|c l IH]; simpl in *; auto. inversion N; subst.
    destruct (mem_flag s _); simpl; auto. constructor; auto.
    intro H. apply H1. apply in_map_iff in H. destruct H as [d [E H]]. apply filter_In in H. apply in_map_iff. exists d. tauto. }
  destruct Hc as [rs [Ec Hrs]]. specialize (Hnd rs Ec).
  unfold mesh_bin_points. rewrite Ec.
  destruct (@mesh_bin_ok A P inside sf f HR bin_cover rs (combine (seq 0 (length pts)) pts)) as [b [y [B1 [B2 [B3 [B4 B5]]]]]].
  { intros q n H. apply Hrs in H. destruct H as [i [-> E]]. exists i. split; auto. simpl. rewrite E. split; auto. eapply Hr; eauto. }
  { auto. }
  rewrite B1. cbn [bind fst snd].
  assert (Hcomb : forall (l : list P) s j x, In (j, x) (combine (seq s (length l)) l) <-> (s <= j)%nat /\ nth_error l (j - s) = Some x).
  { induction l as [|z l IH]; intros s j x; simpl.
    - split; [tauto|]. intros [_ H]. destruct (j - s)%nat; discriminate.
    - rewrite IH. split.
      + intros [H|[H1 H2]]; [injection H as <- <-; split; [lia|]; rewrite Nat.sub_diag; auto|].
        split; [lia|]. replace (j - s)%nat with (S (j - S s)) by lia. auto.
      + intros [H1 H2]. destruct (Nat.eq_dec j s) as [->|N].
        * rewrite Nat.sub_diag in H2. simpl in H2. left. congruence.
        * right. split; [lia|]. replace (j - s)%nat with (S (j - S s)) in H2 by lia. auto. }
  assert (Hroot_of : forall z, root_of inside rs z <-> exists t, In t f /\ inside (n_data t) z = true).
  { intro z. unfold root_of. split.
    - intros [q [n [H1 H2]]]. apply Hrs in H1. destruct H1 as [i [-> E]]. exists n. split; auto. eapply nth_error_In; eauto.
    - intros [t [H1 H2]]. apply In_nth_error in H1. destruct H1 as [i E]. exists [i], t. split; auto. apply Hrs. eauto. }
  destruct y as [|[j z] y].
  - right. split.
    + intros x Hx. apply In_nth_error in Hx. destruct Hx as [j Ej].
      destruct (existsb (fun t => inside (n_data t) x) f) eqn:Ex.
      * apply existsb_exists in Ex. exact Ex.
      * exfalso. assert (H : In (j, x) []).
        { apply B5. split; [apply Hcomb; split; [lia|rewrite Nat.sub_0_r; auto]|].
          rewrite Hroot_of. intros [t [H1 H2]].
          assert (existsb (fun t => inside (n_data t) x) f = true) by (apply existsb_exists; eauto). congruence. }
        destruct H.
    + exists b. split; auto. split; [|split; auto].
      * simpl in B3. rewrite app_nil_r in B3. etransitivity; [exact B3|].
        assert (Em : forall (l : list P) s, map fst (combine (seq s (length l)) l) = seq s (length l)).
        { induction l as [|w l IH]; intro s; simpl; auto. f_equal. auto. }
        rewrite Em. apply Permutation_refl.
      * intros q idx Hq. destruct (B2 q idx Hq) as [N [[c [E [Lf Hj]]] _]]. split; auto. exists c. split; auto. split; auto.
        intros k Hk. destruct (Hj k Hk) as [w [Hw Iw]]. apply Hcomb in Hw. rewrite Nat.sub_0_r in Hw. exists w. tauto.
  - left. split; auto. destruct (proj1 (B5 j z) (or_introl eq_refl)) as [H1 H2]. exists z. split.
    + apply Hcomb in H1. destruct H1 as [_ H1]. eapply nth_error_In; eauto.
    + intros t Ht. destruct (inside (n_data t) z) eqn:E; auto. exfalso. apply H2. apply Hroot_of. eauto.
Qed.
End BinGen.
