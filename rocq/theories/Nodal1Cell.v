(** * Nodal functions on 1D meshes: evaluation with a given cell *)
From Coq Require Import List Arith Bool Lia Permutation QArith Lqa Qfield.
From Verif Require Import Tree Forest SpecForest History TreeFacts ForestFacts LabelFacts GenFacts Geom SpecGeom IntervalFacts Mesh1D Fem SpecFem BinFacts
  Dof SpecDof DofVert SpecDofVert Basis Solver Nodal NodalFacts Nodal1 SpecNodal Nodal1Facts Nodal1Main.
From Verif Require Prop_Bin Dof1DFacts DofVertFacts Dof1DHist.
Import ListNotations.
Open Scope Q_scope.

Section Climb.
Context {A P : Type} (inside : A -> P -> bool) (sf : option flag) (f : forest A).
Hypothesis HC : forall p n x, fget f p = Some n -> fl_ok sf n -> has_children n sf = true -> inside (n_data n) x = true ->
  exists i k, nth_error (n_slots n) i = Some (Some k) /\ fl_ok sf k /\ inside (n_data k) x = true.
Lemma climb_ok (pts : list (nat * P)) : pts <> [] -> forall anc p,
  (forall q, In q (p :: anc) -> q <> [] /\ exists n, fget f q = Some n /\ forall j x, In (j, x) pts -> inside (n_data n) x = true) ->
  (exists q n, In q (p :: anc) /\ fget f q = Some n /\ fl_ok sf n) ->
  exists b q n, bin_climb inside sf f p anc pts = Ok b /\ q <> [] /\ fget f q = Some n /\ bin_ok inside sf q n pts b.
Proof.
  intro NE. induction anc as [|q0 anc IH]; intros p Hin Hex; destruct (Hin p (or_introl eq_refl)) as [Np [n [En Hn]]].
  - assert (Fn : fl_ok sf n). { destruct Hex as [q [m [[<-|[]] [Em Fm]]]]. congruence. }
    destruct (@bin_node_ok A P inside sf n p pts Fn) as [b [B1 B2]]; auto.
    { intros r c x Er. apply (HC (p ++ r)). destruct p as [|i p]; [congruence|]. rewrite fget_app, En. auto. }
    exists b, p, n. split; auto. cbn [bin_climb]. rewrite En.
    replace (forallb (fun ix => inside (n_data n) (snd ix)) pts) with true by (symmetry; apply forallb_forall; intros [j x] Hx; apply (Hn j x Hx)).
    cbn [negb]. destruct sf; auto. unfold fl_ok in Fn. rewrite Fn. auto.
  - cbn [bin_climb]. rewrite En.
    replace (forallb (fun ix => inside (n_data n) (snd ix)) pts) with true by (symmetry; apply forallb_forall; intros [j x] Hx; apply (Hn j x Hx)).
    cbn [negb]. destruct (fl_ok_dec_b sf n) as [[Fb Fn]|[Fb Fn]].
    + destruct (@bin_node_ok A P inside sf n p pts Fn) as [b [B1 B2]]; auto.
      { intros r c x Er. apply (HC (p ++ r)). destruct p as [|i p]; [congruence|]. rewrite fget_app, En. auto. }
      exists b, p, n. split; auto. destruct sf; auto. rewrite Fb. auto.
    + destruct sf as [fl|]; [|exfalso; apply Fn; exact Logic.I]. rewrite Fb. apply IH.
      * intros q Hq. apply Hin. right; auto.
      * destruct Hex as [q [m [[<-|Hq] [Em Fm]]]]; [|exists q, m; auto]. exfalso. apply Fn. congruence.
Qed.
End Climb.

Section Use3.
Context {periodic : bool} {a b : Q} {e : elem} {f : forest itv} {sf : option flag} {s : dofs} {dv : dverts} {L : list nat} {B : bmaps}.
Hypothesis U : in_use periodic a b e f sf s dv L B.

Lemma two_kids : forall p (n : node itv), fget f p = Some n -> n_children n = 2%nat.
Proof. destruct (use_mesh U) as [[l [P R]] [T [N _]]]. apply (Dof1DHist.fgen_two f); auto. eapply run_gen; eauto. intros i t H. destruct i; discriminate. Qed.
Lemma use_gen : fgen ikid f.
Proof. destruct (use_mesh U) as [[l [P R]] _]. eapply run_gen; eauto. intros i t H. destruct i; discriminate. Qed.
Lemma use_nested p r (n m : node itv) : p <> [] -> fget f p = Some n -> fget f (p ++ r) = Some m -> fst (n_data n) <= fst (n_data m) /\ snd (n_data m) <= snd (n_data n).
Proof.
  intros Np En Em. destruct (use_mesh U) as [_ [T _]].
  pose proof (Dof1DFacts.nested false f a b use_gen two_kids T ltac:(discriminate) p r Np) as X. unfold Dof1DFacts.here, Dof1DFacts.data in X.
  rewrite Em, En in X. apply X. discriminate.
Qed.
Lemma root_in p (n : node itv) : fget f p = Some n -> exists i, In i (match p with [] => [] | i :: _ => [i] end) /\ exists t, fget f [i] = Some t /\ fl_ok sf t.
Proof.
  intro E. destruct p as [|i p]; [discriminate|]. exists i. split; [left; reflexivity|]. cbn in E.
  destruct (nth_error f i) as [t|] eqn:Et; [|discriminate]. exists t. cbn. rewrite Et. split; auto.
  pose proof (iu_rooted _ _ _ _ _ _ _ _ _ _ U) as R. destruct sf as [fl|]; [|exact Logic.I].
  destruct R as [R _]. specialize (R i). unfold marked_at, present in R. cbn [fget] in R. rewrite Et in R. cbn [nget] in R. apply R. reflexivity.
Qed.

Lemma use_bins_cell p n xs : fget f p = Some n -> xs <> [] -> (forall x, In x xs -> fst (n_data n) <= x <= snd (n_data n)) ->
  exists bs, good_bins (f := f) (sf := sf) (bins1 f sf (Some p)) xs bs.
Proof.
  intros En NX X. set (pts := combine (seq 0 (length xs)) xs).
  assert (Pin : forall j x, In (j, x) pts -> nth_error xs j = Some x /\ In x xs).
  { intros j x H. unfold pts in H. assert (K : forall (l : list Q) o j x, In (j, x) (combine (seq o (length l)) l) -> nth_error l (j - o) = Some x /\ (o <= j)%nat /\ In x l).
    { clear. induction l as [|y l IH]; intros o j x H; [destruct H|]. cbn [length seq combine] in H. destruct H as [H|H].
      - injection H as <- <-. rewrite Nat.sub_diag. split; [|split]; auto; left; reflexivity.
      - destruct (IH _ _ _ H) as [E1 [E2 E3]]. replace (j - o)%nat with (S (j - S o)) by lia. split; [|split]; [exact E1|lia|right; auto]. }
    destruct (K _ _ _ _ H) as [E1 [_ E3]]. rewrite Nat.sub_0_r in E1. auto. }
  assert (NE : pts <> []) by (unfold pts; destruct xs; [congruence|discriminate]).
  assert (HC : forall p n x, fget f p = Some n -> fl_ok sf n -> has_children n sf = true -> icontains (n_data n) x = true ->
    exists i k, nth_error (n_slots n) i = Some (Some k) /\ fl_ok sf k /\ icontains (n_data k) x = true).
  { apply (Prop_Bin.bin_cover icontains ikid f sf use_gen (iu_rooted _ _ _ _ _ _ _ _ _ _ U)).
    intros q m x _ Hm Hx. apply Prop_Bin.ikid_cover; auto. }
  assert (Np : p <> []) by (intros ->; discriminate).
  destruct (climb_ok icontains sf f HC pts NE (ancestors p) p) as [bs [q [m [E1 [Nq [Em [K1 [K2 K3]]]]]]]].
  - intros q Hq. assert (Hpre : q <> [] /\ exists r, p = q ++ r).
    { destruct Hq as [<-|Hq]; [split; auto; exists []; rewrite app_nil_r; auto|]. apply in_ancestors in Hq. destruct Hq as [Nq [i [r ->]]]. split; eauto. }
    destruct Hpre as [Nq [r ->]]. split; auto. pose proof En as En'. destruct q as [|iq q]; [congruence|]. rewrite fget_app in En'. destruct (fget f (iq :: q)) as [m|] eqn:Em; [|discriminate].
    exists m. split; auto. intros j x Hj. apply Prop_Bin.C19_interval_contains. destruct (Pin j x Hj) as [_ Hx]. pose proof (X x Hx).
    destruct (use_nested (iq :: q) r m n Nq Em En). lra.
  - destruct (root_in p n En) as [i [Hi [t [Et Ft]]]]. destruct p as [|i' p]; [destruct Hi|]. destruct Hi as [->|[]]. exists [i], t. split; auto.
    destruct p as [|j p]; [left; reflexivity|]. right. apply in_ancestors. split; [discriminate|]. exists j, p. reflexivity.
  - exists bs. split; [exact E1|]. split.
    + etransitivity; [exact K2|]. unfold pts. assert (Z : map fst (combine (seq 0 (length xs)) xs) = seq 0 (length xs)).
      { generalize 0%nat. clear. induction xs as [|x xs IH]; intro o; [reflexivity|]. cbn [length seq combine map fst]. rewrite IH. reflexivity. }
      rewrite Z. apply Permutation_refl.
    + intros c idx Hc. destruct (K1 c idx Hc) as [_ [r [cn [-> [Er [Lf Hj]]]]]]. exists cn. split; [destruct q as [|iq q]; [congruence|]; rewrite fget_app, Em; auto|]. split; auto.
      intros j Hj'. destruct (Hj j Hj') as [x [Hx Ix]]. exists x. apply Pin in Hx. split; [apply Hx|]. apply Prop_Bin.C19_interval_contains; auto.
Qed.
Lemma use_bins_cell_out p n xs : fget f p = Some n -> (exists x, In x xs /\ ~ fst (n_data n) <= x <= snd (n_data n)) ->
  bins1 f sf (Some p) xs = Err AssertionError.
Proof.
  intros En [x [Hx Nx]]. cbn [bins1]. unfold cell_bin_points.
  assert (Z : forallb (fun ix => icontains (n_data n) (snd ix)) (combine (seq 0 (length xs)) xs) = false).
  { apply Bool.not_true_is_false. intro H. rewrite forallb_forall in H.
    assert (K : forall (l : list Q) o x, In x l -> exists j, In (j, x) (combine (seq o (length l)) l)).
    { clear. induction l as [|y l IH]; intros o x H; [destruct H|]. cbn [length seq combine]. destruct H as [->|H]; [exists o; left; reflexivity|].
      destruct (IH (S o) x H) as [j Hj]. exists j. right; auto. }
    destruct (K xs 0%nat x Hx) as [j Hj]. specialize (H _ Hj). cbn in H. apply Prop_Bin.C19_interval_contains in H. auto. }
  destruct (ancestors p); cbn [bin_climb]; rewrite En, Z; reflexivity.
Qed.
End Use3.
