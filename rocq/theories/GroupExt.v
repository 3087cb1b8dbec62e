(** * Grouping depends only on the end points of the boundary half-edges (for C67) *)
From Coq Require Import List Arith Bool Lia.
From Verif Require Import Tree Dcel Segments.
Import ListNotations.
Open Scope nat_scope.

Section EXT.
Variables base head base' head' : nat -> nat.
Variable v : variant.
Variable B : list nat.
Hypothesis Eb : forall h, In h B -> base h = base' h.
Hypothesis Eh : forall h, In h B -> head h = head' h.
Definition W (L : list nat) (H : heapd) : Prop := incl L B /\ forall k, In k B -> H k <> [] /\ incl (H k) B.

Lemma first_in l : l <> [] -> In (first l) l. Proof. destruct l; [congruence|left; auto]. Qed.
Lemma final_in l : l <> [] -> In (final l) l.
Proof. intros N. destruct (exists_last N) as [a [x ->]]. unfold final. rewrite last_last. apply in_or_app; right; left; auto. Qed.
Lemma pop_incl : forall L i, incl (pop_at i L) L.
Proof. induction L as [|x L IH]; intros [|i]; simpl; try apply incl_refl; [apply incl_tl, incl_refl|]. apply incl_cons; [left; auto|apply incl_tl, IH]. Qed.
Lemma index_lt H g : forall L i, index_of H g L = Some i -> i < length L.
Proof.
  induction L as [|x L IH]; intros i; simpl; [discriminate|]. destruct (list_eqb (H x) (H g)); [intros [= <-]; lia|].
  destruct (index_of H g L) as [j|]; [|discriminate]. intros [= <-]. specialize (IH j eq_refl). lia.
Qed.
Lemma W_absorb lf g1 g2 L H L' H' : W L H -> In g1 B -> absorb v lf g1 g2 L H = (L', H') -> W L' H'.
Proof.
  intros [W1 W2] Ig E. unfold absorb in E. destruct (index_of H g2 L) as [i|] eqn:Ei; [|injection E as <- <-; split; auto].
  injection E as <- <-. pose proof (index_lt _ _ _ _ Ei) as Li. split.
  - intros x Hx. apply W1. eapply pop_incl; eauto.
  - intros k Ik. unfold hset. destruct (k =? g1); auto. assert (In2 : In (nth i L 0) B) by (apply W1, nth_In; auto).
    destruct (W2 g1 Ig) as [N1 I1]. destruct (W2 _ In2) as [N2 I2]. destruct lf; unfold extend_left.
    + destruct v; (split; [intros E; apply app_eq_nil in E; tauto|apply incl_app; auto]). intros x Hx. apply I2, in_rev; auto.
    + split; [intros E; apply app_eq_nil in E; tauto|apply incl_app; auto].
Qed.
Lemma inner_ext : forall fuel g1 j L H act, W L H -> In g1 B ->
  inner base head v fuel g1 j L H act = inner base' head' v fuel g1 j L H act /\
  W (fst (fst (inner base head v fuel g1 j L H act))) (snd (fst (inner base head v fuel g1 j L H act))).
Proof.
  induction fuel as [|k IH]; intros g1 j L H act Ww Ig; [split; auto|]. cbn [inner].
  destruct (nth_error L j) as [g2|] eqn:En; [|split; auto]. pose proof Ww as [W1 W2]. apply nth_error_In in En. apply W1 in En.
  destruct (W2 g1 Ig) as [N1 I1]. destruct (W2 g2 En) as [N2 I2].
  rewrite <- (Eh (final (H g1))), <- (Eb (first (H g2))), <- (Eb (first (H g1))), <- (Eh (final (H g2)))
    by (solve [apply I1, final_in, N1 | apply I1, first_in, N1 | apply I2, final_in, N2 | apply I2, first_in, N2]).
  destruct (head (final (H g1)) =? base (first (H g2))).
  - destruct (may_pop v L); [|apply IH; auto]. destruct (absorb v false g1 g2 L H) as [L' H'] eqn:Ea. apply IH; [exact (W_absorb _ _ _ _ _ _ _ Ww Ig Ea)|exact Ig].
  - destruct (base (first (H g1)) =? head (final (H g2))); [|apply IH; auto]. destruct (may_pop v L); [|apply IH; auto].
    destruct (absorb v true g1 g2 L H) as [L' H'] eqn:Ea. apply IH; [exact (W_absorb _ _ _ _ _ _ _ Ww Ig Ea)|exact Ig].
Qed.
Lemma outer_ext : forall fuel i L H act, W L H ->
  outer base head v fuel i L H act = outer base' head' v fuel i L H act /\
  W (fst (fst (outer base head v fuel i L H act))) (snd (fst (outer base head v fuel i L H act))).
Proof.
  induction fuel as [|k IH]; intros i L H act Ww; [split; auto|]. cbn [outer].
  destruct (nth_error L i) as [g1|] eqn:En; [|split; auto]. pose proof Ww as [W1 W2]. apply nth_error_In in En. apply W1 in En.
  destruct (inner_ext (length L) g1 0 L H false Ww En) as [E Wi]. rewrite <- E.
  destruct (inner base head v (length L) g1 0 L H false) as [[L' H'] a]. apply IH. exact Wi.
Qed.
Lemma passes_ext : forall fuel L H act, W L H -> passes base head v fuel L H act = passes base' head' v fuel L H act.
Proof.
  induction fuel as [|k IH]; intros L H act Ww; auto. cbn [passes].
  destruct (outer_ext (length L) 0 L H (match v with VMesh => Some false | VDcel => act end) Ww) as [E Wo]. rewrite <- E.
  destruct (outer base head v (length L) 0 L H _) as [[L' H'] [a|]]; auto.
  destruct (match v with VMesh => negb a || (length L' =? 1) | VDcel => negb a end); [reflexivity|]. apply IH. exact Wo.
Qed.
Lemma group_ext : group base head v B = group base' head' v B.
Proof.
  unfold group. rewrite passes_ext; auto. split; [apply incl_refl|]. intros k Ik. split; [discriminate|]. intros x [<-|[]]; auto.
Qed.
End EXT.
