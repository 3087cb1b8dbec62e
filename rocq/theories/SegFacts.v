(** * Facts about the grouping of boundary half-edges *)
From Coq Require Import List Arith Bool Lia Permutation.
From Verif Require Import Tree Dcel SpecDcel Segments.
Import ListNotations.
Open Scope nat_scope.

Lemma list_eqb_eq : forall a b, list_eqb a b = true <-> a = b.
Proof.
  induction a as [|x a IH]; intros [|y b]; simpl; split; intros H; try discriminate; auto.
  - apply andb_true_iff in H. destruct H as [H1 H2]. apply Nat.eqb_eq in H1. apply IH in H2. congruence.
  - injection H as -> ->. rewrite Nat.eqb_refl. apply IH; auto.
Qed.
Lemma pop_at_perm : forall L i g, nth_error L i = Some g -> Permutation L (g :: pop_at i L).
Proof.
  induction L as [|k L IH]; intros [|i] g E; simpl in *; try discriminate.
  - injection E as ->. reflexivity.
  - rewrite (IH i g E) at 1. apply perm_swap.
Qed.
Lemma pop_at_length : forall L i g, nth_error L i = Some g -> S (length (pop_at i L)) = length L.
Proof. intros L i g E. rewrite (Permutation_length (pop_at_perm _ _ _ E)). reflexivity. Qed.
Lemma index_ok H : forall L g, In g L -> exists i, index_of H g L = Some i /\ i < length L /\ H (nth i L 0) = H g.
Proof.
  induction L as [|k L IH]; intros g I; [destruct I|]. simpl.
  destruct (list_eqb (H k) (H g)) eqn:E.
  - exists 0. repeat split; [simpl; lia|]. apply list_eqb_eq; auto.
  - destruct I as [->|I].
    + rewrite (proj2 (list_eqb_eq _ _) eq_refl) in E. discriminate.
    + destruct (IH g I) as [i [Ei [Li Hi]]]. exists (S i). rewrite Ei. repeat split; auto. simpl; lia.
Qed.

Section facts.
Variable base head : nat -> nat.
Let R (a b : nat) := head a = base b.

Lemma chain_cons a b r : chain R (a :: b :: r) <-> R a b /\ chain R (b :: r).
Proof. split; intros H; exact H. Qed.
Lemma chain_app : forall a b, a <> [] -> b <> [] -> chain R a -> chain R b -> R (last a 0) (hd 0 b) -> chain R (a ++ b).
Proof.
  induction a as [|x a IH]; intros b Na Nb Ca Cb J; [congruence|]. destruct a as [|y a].
  - destruct b as [|z b]; [congruence|]. simpl app. apply chain_cons. split; auto.
  - simpl app. apply chain_cons. apply chain_cons in Ca. destruct Ca as [C1 C2]. split; auto.
    apply IH; auto. discriminate.
Qed.
Lemma chain_interior : forall l1 a b l2, chain R (l1 ++ a :: b :: l2) -> R a b.
Proof.
  induction l1 as [|x l1 IH]; intros a b l2 C.
  - apply chain_cons in C. exact (proj1 C).
  - simpl app in C. destruct C as [_ C]. eapply IH; eauto.
Qed.
Lemma in_first_or_pred : forall l b, In b l -> hd 0 l = b \/ exists l1 p l2, l = l1 ++ p :: b :: l2.
Proof.
  intros l b I. apply in_split in I. destruct I as [l1 [l2 ->]].
  destruct (@exists_last _ (0 :: l1) ltac:(discriminate)) as [m [p E]].
  destruct l1 as [|x l1]; [left; reflexivity|]. right.
  destruct (@exists_last _ (x :: l1) ltac:(discriminate)) as [m' [p' ->]].
  exists m', p', l2. rewrite <- app_assoc. reflexivity.
Qed.
Lemma in_last_or_succ : forall l a, In a l -> last l 0 = a \/ exists l1 b l2, l = l1 ++ a :: b :: l2.
Proof.
  intros l a I. apply in_split in I. destruct I as [l1 [l2 ->]]. destruct l2 as [|b l2].
  - left. apply last_last.
  - right. exists l1, b, l2. reflexivity.
Qed.
Lemma last_in : forall l : list nat, l <> [] -> In (last l 0) l.
Proof.
  intros l N. destruct (exists_last N) as [m [x ->]]. rewrite last_last. apply in_or_app. right; left; auto.
Qed.
Lemma hd_in : forall l : list nat, l <> [] -> In (hd 0 l) l.
Proof. intros [|x l] N; [congruence|left; auto]. Qed.
Lemma last_app_ne : forall a b : list nat, b <> [] -> last (a ++ b) 0 = last b 0.
Proof.
  intros a b N. destruct (exists_last N) as [m [x ->]]. rewrite app_assoc, !last_last. reflexivity.
Qed.
Lemma hd_app_ne : forall a b : list nat, a <> [] -> hd 0 (a ++ b) = hd 0 a.
Proof. intros [|x a] b N; [congruence|reflexivity]. Qed.

(** ** The groups *)
Variable B : list nat.
Definition cov (L : list nat) (H : heapd) : list nat := concat (map H L).
Definition Inv (L : list nat) (H : heapd) : Prop :=
  NoDup L /\ (forall k, In k L -> H k <> [] /\ chain R (H k)) /\ NoDup (cov L H) /\ incl (cov L H) B.

Lemma in_cov L H x : In x (cov L H) <-> exists k, In k L /\ In x (H k).
Proof.
  unfold cov. rewrite in_concat. split.
  - intros [l [Il Ix]]. apply in_map_iff in Il. destruct Il as [k [<- Ik]]. eauto.
  - intros [k [Ik Ix]]. exists (H k). split; auto. apply in_map; auto.
Qed.
Lemma cov_perm L L' H : Permutation L L' -> Permutation (cov L H) (cov L' H).
Proof. intros P. unfold cov. rewrite <- !flat_map_concat_map. apply Permutation_flat_map; auto. Qed.
Lemma Inv_perm L L' H : Permutation L L' -> Inv L H -> Inv L' H.
Proof.
  intros P [A [C [D E]]]. split; [|split; [|split]].
  - eapply Permutation_NoDup; eauto.
  - intros k I. apply C. eapply Permutation_in; [apply Permutation_sym|]; eauto.
  - eapply Permutation_NoDup; [apply cov_perm; eauto|auto].
  - intros x I. apply E. eapply Permutation_in; [apply Permutation_sym, cov_perm|]; eauto.
Qed.
Lemma NoDup_app_inv {X} : forall a b : list X, NoDup (a ++ b) -> NoDup a /\ NoDup b /\ (forall x, In x a -> ~ In x b).
Proof.
  induction a as [|x a IH]; intros b N; [repeat split; auto; constructor|].
  simpl in N. inversion N; subst. destruct (IH b H2) as [A [C D]]. rewrite in_app_iff in H1. repeat split; auto.
  - constructor; auto.
  - intros y [<-|I]; auto.
Qed.
Lemma Inv_disj L H : Inv L H -> forall k k' x, In k L -> In k' L -> In x (H k) -> In x (H k') -> k = k'.
Proof.
  intros [A [_ [D _]]] k k' x Ik Ik' Ix Ix'. destruct (Nat.eq_dec k k') as [|N]; auto. exfalso.
  apply in_split in Ik. destruct Ik as [l1 [l2 ->]].
  assert (P : Permutation (l1 ++ k :: l2) (k :: l1 ++ l2)) by (symmetry; apply Permutation_middle).
  assert (D' : NoDup (cov (k :: l1 ++ l2) H)) by (eapply Permutation_NoDup; [apply cov_perm; eauto|auto]).
  change (cov (k :: l1 ++ l2) H) with (H k ++ cov (l1 ++ l2) H) in D'.
  apply NoDup_app_inv in D'. destruct D' as [_ [_ D']]. apply (D' x Ix). apply in_cov. exists k'. split; auto.
  assert (I : In k' (k :: l1 ++ l2)) by (eapply Permutation_in; eauto). destruct I as [|I]; [congruence|auto].
Qed.
Lemma Inv_group L H k : Inv L H -> In k L -> NoDup (H k).
Proof.
  intros [_ [_ [D _]]] I. apply in_split in I. destruct I as [l1 [l2 ->]].
  assert (P : Permutation (l1 ++ k :: l2) (k :: l1 ++ l2)) by (symmetry; apply Permutation_middle).
  assert (D' : NoDup (cov (k :: l1 ++ l2) H)) by (eapply Permutation_NoDup; [apply cov_perm; eauto|auto]).
  apply NoDup_app_inv in D'. tauto.
Qed.
Lemma Inv_index L H g : Inv L H -> In g L -> exists i, index_of H g L = Some i /\ nth_error L i = Some g.
Proof.
  intros I Ig. destruct (index_ok H L g Ig) as [i [Ei [Li Hi]]]. exists i. split; auto.
  rewrite (nth_error_nth' _ 0 Li). f_equal.
  pose proof I as I'. destruct I' as [_ [C _]]. destruct (C g Ig) as [Ng _].
  destruct (H g) as [|x r] eqn:Eg; [congruence|].
  apply (Inv_disj _ _ I _ g x); auto.
  - apply nth_In; auto.
  - rewrite Hi. left; auto.
  - rewrite Eg. left; auto.
Qed.
Lemma cov_hset L H g l : ~ In g L -> cov L (hset H g l) = cov L H.
Proof.
  intros N. unfold cov. f_equal. apply map_ext_in. intros k I. unfold hset.
  destruct (Nat.eqb_spec k g); [subst; contradiction|reflexivity].
Qed.
Lemma Inv_tail g L H l g1 : Inv (g :: L) H -> ~ In g1 L -> Inv L (hset H g1 l).
Proof.
  intros [A [C [D E]]] N. inversion A; subst.
  change (cov (g :: L) H) with (H g ++ cov L H) in *. apply NoDup_app_inv in D. destruct D as [_ [D _]].
  split; [auto|]. split; [|split].
  - intros k I. unfold hset. destruct (Nat.eqb_spec k g1); [subst; contradiction|]. apply C; right; auto.
  - rewrite cov_hset by auto. auto.
  - rewrite cov_hset by auto. intros x I. apply E. apply in_or_app; auto.
Qed.
Lemma Inv_join g2 g1 M H l : Inv (g2 :: g1 :: M) H -> Permutation l (H g1 ++ H g2) -> chain R l ->
  Inv (g1 :: M) (hset H g1 l) /\ Permutation (cov (g1 :: M) (hset H g1 l)) (cov (g2 :: g1 :: M) H).
Proof.
  intros I P Cl. pose proof I as [A [C [D E]]]. inversion A; subst. inversion H3; subst.
  assert (PC : Permutation (cov (g1 :: M) (hset H g1 l)) (cov (g2 :: g1 :: M) H)).
  { change (cov (g1 :: M) (hset H g1 l)) with (hset H g1 l g1 ++ cov M (hset H g1 l)).
    rewrite cov_hset by auto. unfold hset. rewrite Nat.eqb_refl.
    change (cov (g2 :: g1 :: M) H) with (H g2 ++ H g1 ++ cov M H). rewrite P, app_assoc. apply Permutation_app; [|reflexivity].
    apply Permutation_app_comm. }
  split; auto. split; [auto|]. split; [|split].
  - intros k Ik. unfold hset. destruct (Nat.eqb_spec k g1) as [->|N].
    + split; auto. intros ->. apply Permutation_nil in P. apply app_eq_nil in P. destruct P as [P _].
      destruct (C g1); [right; left; auto|]. congruence.
    + apply C. right; auto.
  - eapply Permutation_NoDup; [apply Permutation_sym; eauto|auto].
  - intros x Ix. apply E. eapply Permutation_in; eauto.
Qed.

(** ** One absorption in the Mesh2D method *)
Definition left_list (l1 l2 : list nat) (lf : bool) := if lf then l2 ++ l1 else l1 ++ l2.
Lemma absorb_eq L H g1 g2 lf : Inv L H -> In g2 L ->
  exists L', absorb VMesh lf g1 g2 L H = (L', hset H g1 (left_list (H g1) (H g2) lf)) /\
             Permutation L (g2 :: L') /\ S (length L') = length L.
Proof.
  intros I Ig. destruct (Inv_index _ _ _ I Ig) as [i [Ei En]]. exists (pop_at i L). unfold absorb. rewrite Ei.
  rewrite (nth_error_nth _ _ 0 En). split; [destruct lf; reflexivity|]. split; [apply pop_at_perm; auto|].
  apply (pop_at_length L i g2 En).
Qed.
Definition fits (lf : bool) (l1 l2 : list nat) : Prop :=
  if lf then base (first l1) = head (final l2) else head (final l1) = base (first l2).
Lemma chain_left_list lf l1 l2 : l1 <> [] -> l2 <> [] -> chain R l1 -> chain R l2 -> fits lf l1 l2 -> chain R (left_list l1 l2 lf).
Proof.
  intros N1 N2 C1 C2 F. destruct lf; simpl in *; apply chain_app; auto. unfold R. symmetry; exact F.
Qed.
Lemma left_list_perm lf l1 l2 : Permutation (left_list l1 l2 lf) (l1 ++ l2).
Proof. destruct lf; simpl; auto. apply Permutation_app_comm. Qed.

(** soundness step: whether g1 is still in the list or not *)
Lemma absorb_inv L H g1 g2 lf L' H' : Inv L H -> In g2 L -> fits lf (H g1) (H g2) ->
  absorb VMesh lf g1 g2 L H = (L', H') ->
  Inv L' H' /\ S (length L') = length L /\
  (In g1 L -> g2 <> g1 -> In g1 L' /\ Permutation (cov L' H') (cov L H)) /\
  (g2 = g1 -> ~ In g1 L' /\ Permutation (cov L H) (H g1 ++ cov L' H') /\ H' g1 = left_list (H g1) (H g1) lf) .
Proof.
  intros I Ig F E. destruct (absorb_eq L H g1 g2 lf I Ig) as [L0 [E0 [P Le]]]. rewrite E0 in E. injection E as <- <-.
  pose proof (Inv_perm _ _ _ P I) as I'. pose proof I' as [A [C _]]. inversion A; subst.
  destruct (in_dec Nat.eq_dec g1 L0) as [I1|N1].
  - assert (g2 <> g1) by (intros ->; contradiction).
    destruct (in_split _ _ I1) as [l1 [l2 El]].
    assert (PM : Permutation L0 (g1 :: l1 ++ l2)) by (rewrite El; symmetry; apply Permutation_middle).
    assert (IJ : Inv (g2 :: g1 :: l1 ++ l2) H) by (eapply Inv_perm; [|apply I']; constructor; auto).
    destruct (C g1 (or_intror I1)) as [Ng1 Cg1]. destruct (C g2 (or_introl eq_refl)) as [Ng2 Cg2].
    destruct (Inv_join g2 g1 (l1 ++ l2) H (left_list (H g1) (H g2) lf) IJ (left_list_perm _ _ _)) as [J1 J2].
    { apply chain_left_list; auto. }
    split; [eapply Inv_perm; [apply Permutation_sym; eauto|auto]|]. split; auto. split; [|intros ->; congruence].
    intros _ _. split; auto. rewrite (cov_perm _ _ _ PM), J2. apply cov_perm.
    symmetry. rewrite P. constructor; auto.
  - split; [apply (Inv_tail g2); auto|]. split; auto. split.
    + intros Ig1 N. exfalso. apply N1. assert (In g1 (g2 :: L0)) by (eapply Permutation_in; eauto).
      destruct H0; [congruence|auto].
    + intros ->. split; auto. split; [|unfold hset; rewrite Nat.eqb_refl; reflexivity].
      rewrite (cov_perm _ _ _ P). change (cov (g1 :: L0) H) with (H g1 ++ cov L0 H).
      rewrite cov_hset; auto.
Qed.

(** ** Soundness for every boundary *)
Lemma inner_sound : forall fuel g1 j L H act L' H' a, Inv L H ->
  inner base head VMesh fuel g1 j L H act = (L', H', a) ->
  Inv L' H' /\ length L' <= length L /\ (a = true -> act = true \/ length L' < length L) /\
  (a = false -> act = false /\ L' = L /\ H' = H).
Proof.
  induction fuel as [|n IH]; intros g1 j L H act L' H' a I E; simpl in E.
  - injection E as <- <- <-. split; [exact I|]. split; [lia|]. split; [intros; left; auto|intros ->; auto].
  - destruct (nth_error L j) as [g2|] eqn:En.
    2: { injection E as <- <- <-. split; [exact I|]. split; [lia|]. split; [intros; left; auto|intros ->; auto]. }
    apply nth_error_In in En.
    assert (Z : forall lf, fits lf (H g1) (H g2) ->
      (let (L1, H1) := absorb VMesh lf g1 g2 L H in inner base head VMesh n g1 (S j) L1 H1 true) = (L', H', a) ->
      Inv L' H' /\ length L' <= length L /\ (a = true -> act = true \/ length L' < length L) /\
      (a = false -> act = false /\ L' = L /\ H' = H)).
    { intros lf F E'. destruct (absorb VMesh lf g1 g2 L H) as [L1 H1] eqn:Ea.
      destruct (absorb_inv L H g1 g2 lf L1 H1 I En F Ea) as [I1 [Le _]].
      destruct (IH _ _ _ _ _ _ _ _ I1 E') as [I2 [L2 [A2 A3]]]. split; auto. split; [lia|]. split; [right; lia|].
      intros ->. destruct (A3 eq_refl). discriminate. }
    destruct (Nat.eqb_spec (head (final (H g1))) (base (first (H g2)))) as [F|NF].
    { apply (Z false); auto. }
    destruct (Nat.eqb_spec (base (first (H g1))) (head (final (H g2)))) as [F|NF'].
    { apply (Z true); auto. }
    eapply IH; eauto.
Qed.
Lemma outer_sound : forall fuel i L H act L' H' a, Inv L H ->
  outer base head VMesh fuel i L H act = (L', H', a) ->
  Inv L' H' /\ length L' <= length L /\ (a = Some true -> act = Some true \/ length L' < length L) /\ (act <> None -> a <> None).
Proof.
  induction fuel as [|n IH]; intros i L H act L' H' a I E; simpl in E.
  - injection E as <- <- <-. auto.
  - destruct (nth_error L i) as [g1|]; [|injection E as <- <- <-; auto].
    destruct (inner base head VMesh (length L) g1 0 L H false) as [[L1 H1] a1] eqn:E1.
    destruct (inner_sound _ _ _ _ _ _ _ _ _ I E1) as [I1 [Le [A1 _]]].
    destruct (IH _ _ _ _ _ _ _ I1 E) as [I2 [L2 [A2 A3]]]. split; auto. split; [lia|]. split.
    + intros ->. destruct (A2 eq_refl) as [[= ->]|]; [|right; lia]. destruct (A1 eq_refl); [discriminate|right; lia].
    + intros _. apply A3. discriminate.
Qed.
Lemma passes_sound : forall fuel L H act, Inv L H -> length L < fuel ->
  exists L' H', passes base head VMesh fuel L H act = Ok (L', H') /\ Inv L' H'.
Proof.
  induction fuel as [|n IH]; intros L H act I Lt; [lia|]. simpl.
  destruct (outer base head VMesh (length L) 0 L H (Some false)) as [[L' H'] a] eqn:E.
  destruct (outer_sound _ _ _ _ _ _ _ _ I E) as [I' [Le [A1 A2]]].
  destruct a as [a|]; [|exfalso; apply A2; congruence].
  destruct a; simpl.
  - destruct (Nat.eqb_spec (length L') 1); [eauto|]. destruct (A1 eq_refl) as [|Lt']; [discriminate|]. apply IH; auto. lia.
  - eauto.
Qed.
Lemma Inv_start : NoDup B -> Inv B (fun h => [h]).
Proof.
  intros N. assert (E : cov B (fun h => [h]) = B).
  { unfold cov. clear. induction B; simpl; f_equal; auto. }
  split; auto. split; [|rewrite E; split; auto using incl_refl]. intros k _. split; [discriminate|simpl; auto].
Qed.

(** ** No closed loop: nothing is lost *)
Definition no_loop : Prop := forall c, c <> [] -> NoDup c -> incl c B -> chain R c -> head (last c 0) <> base (hd 0 c).
Lemma inner_open : no_loop -> forall fuel g1 j L H act L' H' a, Inv L H -> In g1 L ->
  inner base head VMesh fuel g1 j L H act = (L', H', a) -> Permutation (cov L' H') (cov L H).
Proof.
  intros NL. induction fuel as [|n IH]; intros g1 j L H act L' H' a I Ig E; simpl in E.
  - injection E as <- <- <-. auto.
  - destruct (nth_error L j) as [g2|] eqn:En.
    2: { injection E as <- <- <-. auto. }
    apply nth_error_In in En.
    assert (Z : forall lf, fits lf (H g1) (H g2) ->
      (let (L1, H1) := absorb VMesh lf g1 g2 L H in inner base head VMesh n g1 (S j) L1 H1 true) = (L', H', a) ->
      Permutation (cov L' H') (cov L H)).
    { intros lf F E'. destruct (absorb VMesh lf g1 g2 L H) as [L1 H1] eqn:Ea.
      destruct (absorb_inv L H g1 g2 lf L1 H1 I En F Ea) as [I1 [_ [A _]]].
      assert (N : g2 <> g1).
      { intros ->. pose proof I as [A0 [C [D In0]]]. destruct (C g1 Ig) as [Ne Cg].
        assert (X : head (last (H g1) 0) = base (hd 0 (H g1))) by (destruct lf; simpl in F; [symmetry|]; exact F).
        revert X. apply NL; auto. apply (Inv_group L); auto. intros x Ix. apply In0. apply in_cov. eauto. }
      destruct (A Ig N) as [Ig1 P]. rewrite <- P. eapply IH; [exact I1|exact Ig1|exact E']. }
    destruct (Nat.eqb_spec (head (final (H g1))) (base (first (H g2)))) as [F|NF].
    { apply (Z false); auto. }
    destruct (Nat.eqb_spec (base (first (H g1))) (head (final (H g2)))) as [F|NF'].
    { apply (Z true); auto. }
    eapply IH; [exact I|exact Ig|exact E].
Qed.
Lemma outer_open : no_loop -> forall fuel i L H act L' H' a, Inv L H ->
  outer base head VMesh fuel i L H act = (L', H', a) -> Permutation (cov L' H') (cov L H).
Proof.
  intros NL. induction fuel as [|n IH]; intros i L H act L' H' a I E; simpl in E.
  - injection E as <- <- <-. auto.
  - destruct (nth_error L i) as [g1|] eqn:Eg; [|injection E as <- <- <-; auto].
    destruct (inner base head VMesh (length L) g1 0 L H false) as [[L1 H1] a1] eqn:E1.
    destruct (inner_sound _ _ _ _ _ _ _ _ _ I E1) as [I1 _].
    rewrite <- (inner_open NL _ _ _ _ _ _ _ _ _ I (nth_error_In _ _ Eg) E1). eapply IH; [exact I1|exact E].
Qed.
Lemma passes_open : no_loop -> forall fuel L H act, Inv L H -> length L < fuel ->
  exists L' H', passes base head VMesh fuel L H act = Ok (L', H') /\ Inv L' H' /\ Permutation (cov L' H') (cov L H).
Proof.
  intros NL. induction fuel as [|n IH]; intros L H act I Lt; [lia|]. simpl.
  destruct (outer base head VMesh (length L) 0 L H (Some false)) as [[L' H'] a] eqn:E.
  destruct (outer_sound _ _ _ _ _ _ _ _ I E) as [I' [Le [A1 A2]]].
  pose proof (outer_open NL _ _ _ _ _ _ _ _ I E) as P.
  destruct a as [a|]; [|exfalso; apply A2; congruence].
  destruct a; simpl.
  - destruct (Nat.eqb_spec (length L') 1); [exists L', H'; auto|]. destruct (A1 eq_refl) as [|Lt']; [discriminate|].
    destruct (IH L' H' (Some true) I' ltac:(lia)) as [L2 [H2 [E2 [I2 P2]]]]. exists L2, H2. split; auto. split; auto.
    rewrite P2; auto.
  - exists L', H'; auto.
Qed.

(** ** Only closed loops: exactly one of them is returned *)
Definition loops : Prop :=
  NoDup (map base B) /\ NoDup (map head B) /\ (forall a, In a B -> exists b, In b B /\ head a = base b).
Definition saturated (L : list nat) (H : heapd) : Prop :=
  (forall a b, In a (cov L H) -> In b B -> head a = base b -> In b (cov L H)) /\
  (forall a b, In a (cov L H) -> In b B -> head b = base a -> In b (cov L H)).

Lemma map_inj (f : nat -> nat) : forall l a b, NoDup (map f l) -> In a l -> In b l -> f a = f b -> a = b.
Proof.
  induction l as [|x l IH]; intros a b N Ia Ib E; [destruct Ia|]. simpl in N. inversion N; subst.
  destruct Ia as [<-|Ia], Ib as [<-|Ib]; auto.
  - exfalso. apply H1. rewrite E. apply in_map; auto.
  - exfalso. apply H1. rewrite <- E. apply in_map; auto.
Qed.
Lemma saturated_perm L H L' H' : Permutation (cov L H) (cov L' H') -> saturated L H -> saturated L' H'.
Proof.
  intros P [A C]. assert (P' := Permutation_sym P). split; intros a b Ia Ib E.
  - eapply Permutation_in; [apply P|]. eapply A; eauto. eapply Permutation_in; eauto.
  - eapply Permutation_in; [apply P|]. eapply C; eauto. eapply Permutation_in; eauto.
Qed.
(** the successor of the last element of a group starts a group *)
Lemma succ_first L H g1 b : loops -> Inv L H -> saturated L H -> In g1 L ->
  In b B -> head (final (H g1)) = base b -> exists g2, In g2 L /\ first (H g2) = b.
Proof.
  intros [NB [NH _]] I S Ig Ib E.
  pose proof I as [_ [C [_ Inc]]]. destruct (C g1 Ig) as [Ne1 C1].
  assert (Il : In (final (H g1)) (H g1)) by (apply last_in; auto).
  assert (Ic : In b (cov L H)).
  { apply (proj1 S (final (H g1))); auto. apply in_cov. eauto. }
  apply in_cov in Ic. destruct Ic as [g2 [Ig2 Ib2]]. exists g2. split; auto.
  destruct (in_first_or_pred _ _ Ib2) as [F|[l1 [p [l2 El]]]]; auto. exfalso.
  destruct (C g2 Ig2) as [Ne2 C2]. rewrite El in C2. apply chain_interior in C2.
  assert (Ip : In p (H g2)) by (rewrite El; apply in_or_app; right; left; auto).
  assert (p = final (H g1)).
  { apply (map_inj head B); auto. apply Inc, in_cov; eauto. apply Inc, in_cov; eauto. unfold R in C2. congruence. }
  subst p. assert (g2 = g1) by (eapply Inv_disj; eauto). subst g2.
  pose proof (Inv_group L H g1 I Ig) as ND.
  assert (Efin : final (H g1) = last (b :: l2) 0).
  { unfold final at 1. rewrite El. rewrite last_app_ne by discriminate. reflexivity. }
  rewrite El in ND. apply NoDup_app_inv in ND. destruct ND as [_ [ND _]]. inversion ND; subst.
  apply H2. rewrite Efin. apply last_in. discriminate.
Qed.
Lemma pred_final L H g1 b : loops -> Inv L H -> saturated L H -> In g1 L ->
  In b B -> head b = base (first (H g1)) -> exists g2, In g2 L /\ final (H g2) = b.
Proof.
  intros [NB [NH _]] I S Ig Ib E.
  pose proof I as [_ [C [_ Inc]]]. destruct (C g1 Ig) as [Ne1 C1].
  assert (Il : In (first (H g1)) (H g1)) by (apply hd_in; auto).
  assert (Ic : In b (cov L H)).
  { apply (proj2 S (first (H g1))); auto. apply in_cov. eauto. }
  apply in_cov in Ic. destruct Ic as [g2 [Ig2 Ib2]]. exists g2. split; auto.
  destruct (in_last_or_succ _ _ Ib2) as [F|[l1 [p [l2 El]]]]; auto. exfalso.
  destruct (C g2 Ig2) as [Ne2 C2]. rewrite El in C2. apply chain_interior in C2.
  assert (Ip : In p (H g2)) by (rewrite El; apply in_or_app; right; right; left; auto).
  assert (p = first (H g1)).
  { apply (map_inj base B); auto. apply Inc, in_cov; eauto. apply Inc, in_cov; eauto. unfold R in C2. congruence. }
  subst p. assert (g2 = g1) by (eapply Inv_disj; eauto). subst g2.
  pose proof (Inv_group L H g1 I Ig) as ND.
  assert (Efin : first (H g1) = hd 0 (l1 ++ [b])).
  { unfold first at 1. rewrite El. change (b :: first (H g1) :: l2) with ([b] ++ first (H g1) :: l2).
    rewrite app_assoc. rewrite hd_app_ne; auto. destruct l1; discriminate. }
  rewrite El in ND. change (b :: first (H g1) :: l2) with ([b] ++ first (H g1) :: l2) in ND. rewrite app_assoc in ND.
  apply NoDup_app_inv in ND. destruct ND as [_ [_ ND]]. apply (ND (first (H g1))); [|left; auto].
  rewrite Efin at 1. apply hd_in. destruct l1; discriminate.
Qed.
(** a group that closes on itself can be taken away *)
Lemma drop_loop L H g1 L' H' : loops -> Inv L H -> saturated L H -> In g1 L ->
  head (final (H g1)) = base (first (H g1)) -> Permutation (cov L H) (H g1 ++ cov L' H') -> saturated L' H'.
Proof.
  intros LP I S Ig E P. pose proof LP as [NB [NH _]].
  pose proof I as [_ [C [D Inc]]]. destruct (C g1 Ig) as [Ne1 C1].
  assert (DP : NoDup (H g1 ++ cov L' H')) by (eapply Permutation_NoDup; eauto).
  apply NoDup_app_inv in DP. destruct DP as [_ [_ Dj]].
  assert (S1 : forall a, In a (cov L' H') -> In a (cov L H)).
  { intros a Ia. eapply Permutation_in; [apply Permutation_sym; eauto|]. apply in_or_app; auto. }
  assert (S2 : forall a, In a (H g1) -> In a (cov L H)) by (intros; apply in_cov; eauto).
  split; intros a b Ia Ib Eab.
  - assert (Ic : In b (cov L H)) by (apply (proj1 S a); auto).
    apply (Permutation_in _ P) in Ic. apply in_app_or in Ic. destruct Ic as [Ic|]; auto. exfalso.
    apply (Dj a); auto.
    destruct (in_first_or_pred _ _ Ic) as [F|[l1 [p [l2 El]]]].
    + assert (a = final (H g1)); [|subst a; apply last_in; auto].
      apply (map_inj head B); auto. apply Inc, S2, last_in; auto. unfold first in E. rewrite F in E. congruence.
    + pose proof C1 as C1'. rewrite El in C1'. apply chain_interior in C1'.
      assert (a = p); [|subst; rewrite El; apply in_or_app; right; left; auto].
      apply (map_inj head B); auto. apply Inc, S2. rewrite El; apply in_or_app; right; left; auto. unfold R in C1'; congruence.
  - assert (Ic : In b (cov L H)) by (apply (proj2 S a); auto).
    apply (Permutation_in _ P) in Ic. apply in_app_or in Ic. destruct Ic as [Ic|]; auto. exfalso.
    apply (Dj a); auto.
    destruct (in_last_or_succ _ _ Ic) as [F|[l1 [p [l2 El]]]].
    + assert (a = first (H g1)); [|subst a; apply hd_in; auto].
      apply (map_inj base B); auto. apply Inc, S2, hd_in; auto. unfold final in E. rewrite F in E. congruence.
    + pose proof C1 as C1'. rewrite El in C1'. apply chain_interior in C1'.
      assert (a = p); [|subst; rewrite El; apply in_or_app; right; right; left; auto].
      apply (map_inj base B); auto. apply Inc, S2. rewrite El; apply in_or_app; right; right; left; auto. unfold R in C1'; congruence.
Qed.
(** g1 has been taken out of the list: it no longer fits anything *)
Definition detached (g1 : nat) (L : list nat) (H : heapd) : Prop :=
  ~ In g1 L /\ In (first (H g1)) B /\ In (final (H g1)) B /\
  ~ In (first (H g1)) (cov L H) /\ ~ In (final (H g1)) (cov L H) /\ head (final (H g1)) = base (first (H g1)).

Lemma inner_loops : loops -> forall fuel g1 j L H act L' H' a, Inv L H -> saturated L H ->
  In g1 L \/ detached g1 L H -> (2 <= length L \/ 1 <= j) -> 1 <= length L -> length L - j <= fuel ->
  inner base head VMesh fuel g1 j L H act = (L', H', a) ->
  saturated L' H' /\ 1 <= length L' /\
  (a = false -> act = false /\ L' = L /\ H' = H /\
     forall k g2, j <= k -> nth_error L k = Some g2 -> head (final (H g1)) <> base (first (H g2))).
Proof.
  intros LP. induction fuel as [|n IH]; intros g1 j L H act L' H' a I S G Lj L1 Fu E; simpl in E.
  - injection E as <- <- <-. repeat split; auto; try apply S. intros k g2 Lk En.
    assert (k < length L) by (apply nth_error_Some; congruence). lia.
  - destruct (nth_error L j) as [g2|] eqn:En.
    2: { injection E as <- <- <-. repeat split; auto; try apply S. intros k g2 Lk En'.
         assert (k < length L) by (apply nth_error_Some; congruence). apply nth_error_None in En. lia. }
    assert (Lj' : j < length L) by (apply nth_error_Some; congruence).
    pose proof (nth_error_In _ _ En) as Ig2. pose proof I as [_ [C [_ Inc]]]. destruct (C g2 Ig2) as [Ne2 C2].
    assert (F2 : In (first (H g2)) (cov L H)) by (apply in_cov; exists g2; split; auto; apply hd_in; auto).
    assert (T2 : In (final (H g2)) (cov L H)) by (apply in_cov; exists g2; split; auto; apply last_in; auto).
    assert (Z : forall lf, fits lf (H g1) (H g2) ->
      (let (L1, H1) := absorb VMesh lf g1 g2 L H in inner base head VMesh n g1 (Datatypes.S j) L1 H1 true) = (L', H', a) ->
      saturated L' H' /\ 1 <= length L' /\
      (a = false -> act = false /\ L' = L /\ H' = H /\
         forall k g2, j <= k -> nth_error L k = Some g2 -> head (final (H g1)) <> base (first (H g2)))).
    { intros lf F E'. destruct (absorb VMesh lf g1 g2 L H) as [L2 H2] eqn:Ea.
      destruct (absorb_inv L H g1 g2 lf L2 H2 I Ig2 F Ea) as [I1 [Le [A B0]]].
      pose proof LP as [NB [NH _]].
      assert (Ig : In g1 L).
      { destruct G as [|[_ [FB [TB [NF [NT Ecl]]]]]]; auto. exfalso. destruct lf; simpl in F.
        - apply NT. replace (final (H g1)) with (final (H g2)); auto.
          apply (map_inj head B); auto. congruence.
        - apply NF. replace (first (H g1)) with (first (H g2)); auto.
          apply (map_inj base B); auto. congruence. }
      assert (Next : saturated L2 H2 /\ (In g1 L2 \/ detached g1 L2 H2)).
      { destruct (Nat.eq_dec g2 g1) as [Eg|N].
        - destruct (B0 Eg) as [N1 [P1 Eh]]. subst g2.
          assert (Ecl : head (final (H g1)) = base (first (H g1))) by (destruct lf; simpl in F; [symmetry|]; exact F).
          split; [apply (drop_loop L H g1 L2 H2); auto|]. right.
          assert (Ef : first (H2 g1) = first (H g1)) by (rewrite Eh; destruct lf; simpl; apply hd_app_ne; auto).
          assert (Et : final (H2 g1) = final (H g1)) by (rewrite Eh; destruct lf; simpl; apply last_app_ne; auto).
          assert (DP : NoDup (H g1 ++ cov L2 H2)) by (eapply Permutation_NoDup; [eauto|apply I]).
          apply NoDup_app_inv in DP. destruct DP as [_ [_ Dj]].
          unfold detached. rewrite Ef, Et. repeat split; auto.
          + apply Dj, hd_in; auto.
          + apply Dj, last_in; auto.
        - destruct (A Ig N) as [Ig1 P1]. split; [eapply saturated_perm; [apply Permutation_sym|]; eauto|auto]. }
      destruct Next as [S2 G2].
      destruct (IH g1 (Datatypes.S j) L2 H2 true L' H' a I1 S2 G2) as [S3 [L3 A3]]; auto; try lia.
      split; auto. split; auto. intros ->. destruct (A3 eq_refl). discriminate. }
    destruct (Nat.eqb_spec (head (final (H g1))) (base (first (H g2)))) as [F|NF].
    { apply (Z false); auto. }
    destruct (Nat.eqb_spec (base (first (H g1))) (head (final (H g2)))) as [F|NF'].
    { apply (Z true); auto. }
    destruct (IH g1 (Datatypes.S j) L H act L' H' a I S G) as [S3 [L3 A3]]; auto; try lia.
    split; auto. split; auto. intros Ha. destruct (A3 Ha) as [-> [-> [-> A4]]]. repeat split; auto.
    intros k g3 Lk Ek. destruct (Nat.eq_dec k j) as [->|]; [congruence|]. apply (A4 k); auto. lia.
Qed.
Lemma inner_active : loops -> forall g1 L H L' H' a, Inv L H -> saturated L H -> In g1 L -> 2 <= length L ->
  inner base head VMesh (length L) g1 0 L H false = (L', H', a) -> a = true.
Proof.
  intros LP g1 L H L' H' a I S Ig L2 E.
  destruct (inner_loops LP (length L) g1 0 L H false L' H' a I S (or_introl Ig) (or_introl L2) ltac:(lia) ltac:(lia) E) as [_ [_ A]].
  destruct a; auto. exfalso. destruct (A eq_refl) as [_ [_ [_ N]]].
  pose proof I as [_ [C [_ Inc]]]. destruct (C g1 Ig) as [Ne1 C1].
  destruct LP as [NB [NH T]]. destruct (T (final (H g1))) as [b [Ib Eb]].
  { apply Inc, in_cov. exists g1. split; auto. apply last_in; auto. }
  destruct (succ_first L H g1 b) as [g2 [Ig2 F]]; auto. { repeat split; auto. }
  apply In_nth_error in Ig2. destruct Ig2 as [k Ek]. apply (N k g2); auto. lia. congruence.
Qed.
Lemma outer_loops : loops -> forall fuel i L H act L' H' a, Inv L H -> saturated L H ->
  (2 <= length L \/ 1 <= i) -> 1 <= length L -> act = Some true \/ i = 0 -> 0 < fuel \/ 1 <= i ->
  outer base head VMesh fuel i L H act = (L', H', a) ->
  saturated L' H' /\ 1 <= length L' /\ a = Some true.
Proof.
  intros LP. induction fuel as [|n IH]; intros i L H act L' H' a I S L2 L1 Ac Fu E; simpl in E.
  - injection E as <- <- <-. repeat split; auto; try apply S. destruct Ac; auto. lia.
  - destruct (nth_error L i) as [g1|] eqn:Eg.
    2: { injection E as <- <- <-. repeat split; auto; try apply S. destruct Ac as [Ac | ->]; auto.
         apply nth_error_None in Eg. lia. }
    assert (Li : i < length L) by (apply nth_error_Some; congruence).
    pose proof (nth_error_In _ _ Eg) as Ig. assert (L2' : 2 <= length L) by lia.
    destruct (inner base head VMesh (length L) g1 0 L H false) as [[L3 H3] a3] eqn:E3.
    pose proof (inner_active LP _ _ _ _ _ _ I S Ig L2' E3) as ->.
    destruct (inner_loops LP (length L) g1 0 L H false L3 H3 true I S (or_introl Ig) (or_introl L2') ltac:(lia) ltac:(lia) E3) as [S3 [L3' _]].
    destruct (inner_sound _ _ _ _ _ _ _ _ _ I E3) as [I3 _].
    eapply IH; [exact I3|exact S3| | | | |exact E]; auto; try lia.
Qed.
Lemma passes_loops : loops -> forall fuel L H act, Inv L H -> saturated L H -> 2 <= length L -> length L < fuel ->
  exists k H', passes base head VMesh fuel L H act = Ok ([k], H') /\ Inv [k] H' /\ saturated [k] H'.
Proof.
  intros LP. induction fuel as [|n IH]; intros L H act I S L2 Lt; [lia|]. simpl.
  destruct (outer base head VMesh (length L) 0 L H (Some false)) as [[L' H'] a] eqn:E.
  destruct (outer_sound _ _ _ _ _ _ _ _ I E) as [I' [Le [A1 _]]].
  destruct (outer_loops LP (length L) 0 L H (Some false) L' H' a I S (or_introl L2) ltac:(lia) (or_intror eq_refl) ltac:(lia) E) as [S' [L1 ->]].
  destruct (A1 eq_refl) as [|Lt']; [discriminate|]. simpl.
  destruct (Nat.eqb_spec (length L') 1) as [E1|N1].
  - destruct L' as [|k [|k' L']]; simpl in *; try lia. exists k, H'. auto.
  - apply IH; auto; lia.
Qed.
Lemma saturated_start : saturated B (fun h => [h]).
Proof.
  assert (E : cov B (fun h => [h]) = B).
  { unfold cov. clear. induction B; simpl; f_equal; auto. }
  split; intros; rewrite E; auto.
Qed.
End facts.
