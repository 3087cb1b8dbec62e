(** * The boundary of a refined mesh (for C67) *)
From Coq Require Import List Arith Bool Lia Permutation QArith.
From Verif Require Import Tree Forest Geom SpecGeom Dcel SpecDcel Segments Quad SpecForest TreeFacts ForestFacts QuadFacts QuadSplit QuadInv SpecQuad Solver Region.
Import ListNotations.
Open Scope nat_scope.

Lemma index_nat_in h l : In h l -> exists i s1 s2, index_nat h l = Some i /\ l = s1 ++ h :: s2 /\ firstn i l = s1 /\ skipn (S i) l = s2.
Proof.
  induction l as [|x r IH]; [intros []|]. intros H. simpl. destruct (x =? h) eqn:E.
  - apply Nat.eqb_eq in E. subst x. exists 0, [], r. auto.
  - destruct H as [->|H]; [rewrite Nat.eqb_refl in E; discriminate|]. destruct (IH H) as [i [s1 [s2 [E1 [E2 [E3 E4]]]]]].
    exists (S i), (x :: s1), s2. rewrite E1. cbn [option_map]. split; auto. split; [simpl; congruence|]. split; [simpl; congruence|].
    change (skipn (S i) r = s2). auto.
Qed.
Lemma chain_replace (B Hd : nat -> nat) a b h : B a = B h -> Hd b = Hd h -> Hd a = B b -> forall s1 s2,
  chain (fun x y => Hd x = B y) (s1 ++ h :: s2) -> chain (fun x y => Hd x = B y) (s1 ++ a :: b :: s2).
Proof.
  intros E1 E2 E3. induction s1 as [|x s1 IH]; intros s2 C.
  - cbn [app] in *. cbn [chain] in *. destruct C as [C1 C2]. split; auto. split; auto. destruct s2; auto. congruence.
  - cbn [app] in *. cbn [chain] in *. destruct C as [C1 C2]. split; [|apply IH; auto]. destruct s1 as [|y s1]; cbn [app] in *; congruence.
Qed.
Lemma chain_ends (B Hd : nat -> nat) a b h : B a = B h -> Hd b = Hd h -> forall s1 s2,
  B (hd 0 (s1 ++ a :: b :: s2)) = B (hd 0 (s1 ++ h :: s2)) /\ Hd (last (s1 ++ a :: b :: s2) 0) = Hd (last (s1 ++ h :: s2) 0).
Proof.
  intros E1 E2 s1 s2. split.
  - destruct s1; simpl; auto.
  - assert (L : forall x s2, last (s1 ++ x :: s2) 0 = last (x :: s2) 0).
    { intros x t. induction s1 as [|y s1 IH]; [reflexivity|]. cbn [app]. rewrite <- IH. destruct (s1 ++ x :: t) eqn:E; [destruct s1; discriminate|]. reflexivity. }
    rewrite !L. destruct s2 as [|y s2]; [simpl; auto|]. reflexivity.
Qed.

Section EXP.
Context {m : mesh2} (I : sinv m).
Variable sf : option flag.
Let s := hp m.

Definition opened (p : path) : Prop := cell_has_children m p sf = true.
(** the sub-cells of root [r] along its side [k] that the submesh contains *)
Definition reach (r k : nat) (q : list nat) : Prop :=
  Forall (touches k) q /\ forall q1 i q2, q = q1 ++ i :: q2 -> opened (r :: q1).

Lemma opened_kids p i : opened p -> i < 4 -> here m p /\ here m (p ++ [i]).
Proof.
  unfold opened, cell_has_children. destruct (fget (cells m) p) as [n|] eqn:F; [|discriminate]. intros H Li.
  assert (Hp : here m p) by (apply here_fget; eauto). split; auto. pose proof (path_nonempty p Hp) as Np.
  apply has_children_spec in H. destruct H as [j [k [E _]]].
  assert (Hj : here m (p ++ [j])) by (apply here_fget; exists k; rewrite fget_snoc, F by auto; rewrite E; auto).
  apply (s_fam m I p j); auto.
Qed.
Lemma touch_lt k i : k < 4 -> touches k i -> i < 4.
Proof. intros L [->| ->]; auto. Qed.
Lemma reach_snoc r k q i : reach r k q -> touches k i -> opened (r :: q) -> reach r k (q ++ [i]).
Proof.
  intros [F O] T Op. split; [apply Forall_app; auto|]. intros q1 j q2 E.
  destruct (@exists_last _ (j :: q2) ltac:(discriminate)) as [u [x Eu]]. rewrite Eu, app_assoc in E. apply app_inj_tail in E. destruct E as [E ->].
  destruct u as [|y u].
  - simpl in E. rewrite app_nil_r in E. subst q1. auto.
  - simpl in Eu. injection Eu as -> E2. apply (O q1 y u). auto.
Qed.
Lemma reach_here r k q : k < 4 -> here m [r] -> reach r k q -> here m (r :: q).
Proof.
  intros L Hr. induction q as [|i q IH] using rev_ind; auto. intros [F O].
  apply Forall_app in F. destruct F as [F Fi]. inversion Fi as [|? ? Ti _]; subst.
  change (here m ((r :: q) ++ [i])). apply opened_kids; [apply (O q i []); auto|]. eapply touch_lt; eauto.
Qed.

Record J (seg0 done todo seg : list nat) : Prop := {
  j_nd : NoDup (done ++ todo); j_lt : forall x, In x (done ++ todo) -> x < nh s;
  j_ns : NoDup seg; j_ts : incl todo seg; j_sd : incl seg (done ++ todo);
  j_par : forall x, In x (done ++ todo) -> P s x = None \/ exists h i, P s x = Some (h, i) /\ In h done;
  j_sound : forall x, In x seg -> exists r k q, In (side m [r] k) seg0 /\ k < 4 /\ here m [r] /\ x = side m (r :: q) k /\ reach r k q;
  j_closed : forall x, In x seg -> In x todo \/ forall p, C s x = Some p -> ~ opened p;
  j_all : forall r k q, In (side m [r] k) seg0 -> k < 4 -> here m [r] -> reach r k q -> ~ opened (r :: q) ->
          exists q1 q2, q = q1 ++ q2 /\ In (side m (r :: q1) k) seg;
  j_chain : chain (fun a b => Hd s a = B s b) seg0 -> chain (fun a b => Hd s a = B s b) seg;
  j_ends : B s (hd 0 seg) = B s (hd 0 seg0) /\ Hd s (last seg 0) = Hd s (last seg0 0);
  j_ne : seg0 <> [] -> seg <> [];
  j_tw : (forall x, In x seg0 -> T s x = None) -> forall x, In x seg -> T s x = None }.

Lemma expand_J : forall fuel seg0 done todo seg, J seg0 done todo seg -> nh s - length done <= fuel ->
  exists seg' done', expand fuel m sf todo seg = Ok seg' /\ J seg0 done' [] seg'.
Proof.
  induction fuel as [|fuel IH]; intros seg0 done todo seg H L; (destruct todo as [|h r]; [exists seg, done; split; auto; destruct fuel; auto|]).
  - exfalso. pose proof (j_nd _ _ _ _ H) as N. assert (LL : length (done ++ h :: r) <= length (seq 0 (nh s))).
    { apply NoDup_incl_length; auto. intros x Hx. apply in_seq. pose proof (j_lt _ _ _ _ H x Hx). lia. }
    rewrite app_length, seq_length in LL. simpl in LL. lia.
  - cbn [expand].
    assert (Hin : In h seg) by (apply (j_ts _ _ _ _ H); left; auto).
    destruct (j_sound _ _ _ _ H h Hin) as [r0 [k [q [S0 [Lk [Hr [Eh Rq]]]]]]]. pose proof (reach_here r0 k q Lk Hr Rq) as Hq.
    destruct (side_good I (r0 :: q) k Hq Lk) as [Lh [Ch _]]. rewrite <- Eh in Ch, Lh.
    assert (LD : length done < nh s).
    { assert (LL : length (done ++ h :: r) <= length (seq 0 (nh s))).
      { apply NoDup_incl_length; [apply (j_nd _ _ _ _ H)|]. intros x Hx. apply in_seq. pose proof (j_lt _ _ _ _ H x Hx). lia. }
      rewrite app_length, seq_length in LL. simpl in LL. lia. }
    assert (PD : Permutation (done ++ h :: r) (h :: (done ++ r))) by (symmetry; apply Permutation_middle).
    assert (ND : NoDup (h :: (done ++ r))) by (eapply Permutation_NoDup; [exact PD|apply (j_nd _ _ _ _ H)]).
    change (hcell (he s h) = Some (r0 :: q)) in Ch. unfold s in Ch. rewrite Ch.
    destruct (cell_has_children m (r0 :: q) sf) eqn:Op.
    + destruct (index_nat_in h seg Hin) as [i [s1 [s2 [Ei [Es [E1 E2]]]]]]. rewrite Ei, E1, E2.
      pose proof (opened_kids (r0 :: q) k Op Lk) as [_ Hk]. pose proof (opened_kids (r0 :: q) ((k + 1) mod 4) Op ltac:(auto)) as [_ Hk'].
      destruct (s_kids m I (r0 :: q) k ltac:(discriminate) Hk) as [EK _]. rewrite <- Eh in EK. rewrite EK.
      set (a := side m ((r0 :: q) ++ [k]) k) in *. set (b := side m ((r0 :: q) ++ [(k + 1) mod 4]) k) in *.
      destruct (i_k _ (s_h m I) _ _ _ Lh EK) as [La [Lb [Pa [Pb [Ba [Hb [Hd' [Ra [Rb MP]]]]]]]]].
      assert (NEW : forall x, P s x = Some (h, 0) \/ P s x = Some (h, 1) -> ~ In x (h :: done ++ r)).
      { intros x Px Hx. destruct (j_par _ _ _ _ H x) as [N|[h' [i' [E' Dn]]]].
        - eapply Permutation_in; [symmetry; exact PD|exact Hx].
        - unfold s in *. destruct Px; congruence.
        - assert (h' = h) by (unfold s in *; destruct Px; congruence). subst h'.
          inversion ND as [|? ? Nh _]. apply Nh. apply in_or_app. auto. }
      assert (Na : ~ In a (h :: done ++ r)) by (apply NEW; left; exact Pa).
      assert (Nb : ~ In b (h :: done ++ r)) by (apply NEW; right; exact Pb).
      assert (Nab : a <> b) by (intros E; rewrite E in Pa; rewrite Pa in Pb; discriminate).
      assert (SD : forall x, In x seg -> In x (h :: done ++ r)).
      { intros x Hx. eapply Permutation_in; [exact PD|]. apply (j_sd _ _ _ _ H). auto. }
      destruct (IH seg0 (done ++ [h]) (r ++ [a; b]) (s1 ++ a :: b :: s2)) as [seg' [done' [E' J']]].
      2:{ rewrite app_length. cbn [length]. lia. }
      2:{ exists seg', done'. split; auto. }
      assert (PN : Permutation ((done ++ [h]) ++ r ++ [a; b]) (a :: b :: h :: done ++ r)).
      { rewrite <- app_assoc. cbn [app]. rewrite <- Permutation_middle.
        rewrite app_assoc. etransitivity; [apply perm_skip, Permutation_app_comm|]. cbn [app].
        etransitivity; [apply perm_swap|]. apply perm_skip. apply perm_swap. }
      assert (Sd2 : forall x, In x (s1 ++ a :: b :: s2) -> x = a \/ x = b \/ (In x seg /\ x <> h)).
      { intros x Hx. apply in_app_or in Hx. pose proof (j_ns _ _ _ _ H) as NS. rewrite Es in NS.
        assert (NH : ~ In h (s1 ++ s2)) by (apply NoDup_remove_2; auto).
        destruct Hx as [Hx|[<-|[<-|Hx]]]; auto; right; right; (split; [rewrite Es; apply in_or_app; simpl; auto|intros ->; apply NH; apply in_or_app; auto]). }
      assert (Seg2 : forall x, In x seg -> x = h \/ In x (s1 ++ a :: b :: s2)).
      { intros x Hx. rewrite Es in Hx. apply in_app_or in Hx. destruct Hx as [Hx|[<-|Hx]]; auto; right; apply in_or_app; simpl; auto. }
      constructor.
      * eapply Permutation_NoDup; [symmetry; exact PN|]. constructor.
        { intros [E|E]; [congruence|]. apply Na; exact E. } constructor; auto.
      * intros x Hx. eapply Permutation_in in Hx; [|exact PN]. destruct Hx as [<-|[<-|Hx]]; auto.
        apply (j_lt _ _ _ _ H). eapply Permutation_in; [symmetry; exact PD|exact Hx].
      * pose proof (j_ns _ _ _ _ H) as NS. rewrite Es in NS. pose proof (NoDup_remove_1 _ _ _ NS) as N1.
        assert (PB : Permutation (s1 ++ a :: b :: s2) (a :: b :: s1 ++ s2)).
        { etransitivity; [symmetry; apply Permutation_middle|]. apply perm_skip. symmetry; apply Permutation_middle. }
        eapply Permutation_NoDup; [symmetry; exact PB|].
        assert (SI : forall x, In x (s1 ++ s2) -> In x seg). { intros x Hx. rewrite Es. apply in_app_or in Hx. apply in_or_app. simpl. tauto. }
        constructor; [intros [E|E]; [congruence|]; apply Na, SD, SI; exact E|]. constructor; [intros E; apply Nb, SD, SI; exact E|exact N1].
      * intros x Hx. apply in_app_or in Hx. destruct Hx as [Hx|[<-|[<-|[]]]].
        { destruct (Seg2 x) as [->|]; auto; [apply (j_ts _ _ _ _ H); right; auto|]. exfalso. inversion ND as [|? ? Nh _]. apply Nh. apply in_or_app; auto. }
        { apply in_or_app; right; left; auto. } { apply in_or_app; right; right; left; auto. }
      * intros x Hx. eapply Permutation_in; [symmetry; exact PN|]. destruct (Sd2 x Hx) as [->|[->|[Hs _]]]; [left; auto|right; left; auto|right; right; apply SD; exact Hs].
      * intros x Hx. eapply Permutation_in in Hx; [|exact PN]. destruct Hx as [<-|[<-|Hx]].
        { right. exists h, 0. split; auto. apply in_or_app; right; left; auto. }
        { right. exists h, 1. split; auto. apply in_or_app; right; left; auto. }
        { destruct (j_par _ _ _ _ H x) as [N|[h' [i' [E' Dn]]]]; [eapply Permutation_in; [symmetry; exact PD|exact Hx]|left; auto|].
          right. exists h', i'. split; auto. apply in_or_app; auto. }
      * intros x Hx. destruct (Sd2 x Hx) as [->|[->|[Hs _]]]; [| |apply (j_sound _ _ _ _ H x Hs)].
        { exists r0, k, (q ++ [k]). (split; [exact S0|]; split; [exact Lk|]; split; [exact Hr|]; split; [reflexivity|]); apply reach_snoc; auto; left; auto. }
        { exists r0, k, (q ++ [(k + 1) mod 4]). (split; [exact S0|]; split; [exact Lk|]; split; [exact Hr|]; split; [reflexivity|]); apply reach_snoc; auto; right; auto. }
      * intros x Hx. destruct (Sd2 x Hx) as [->|[->|[Hs Nx]]]; [left; apply in_or_app; right; left; auto|left; apply in_or_app; right; right; left; auto|].
        destruct (j_closed _ _ _ _ H x Hs) as [[E|Ht]|Cl]; [congruence|left; apply in_or_app; auto|right; auto].
      * intros r1 k1 q1 S1 L1 H1 R1 O1. destruct (j_all _ _ _ _ H r1 k1 q1 S1 L1 H1 R1 O1) as [u [v [Eq Hs]]].
        destruct (Seg2 _ Hs) as [E|Hs']; [|exists u, v; auto].
        assert (Hu : here m (r1 :: u)).
        { apply (reach_here r1 k1 u); auto. destruct R1 as [F1 O1']. split; [rewrite Eq in F1; apply Forall_app in F1; tauto|].
          intros a1 i1 b1 Eu. apply (O1' a1 i1 (b1 ++ v)). rewrite Eq, Eu, <- app_assoc. auto. }
        rewrite Eh in E. destruct (QuadInv.side_inj I _ _ _ _ Hu Hq L1 Lk E) as [Ep ->]. injection Ep as -> ->.
        destruct v as [|j v].
        { exfalso. apply O1. rewrite Eq, app_nil_r. exact Op. }
        destruct R1 as [F1 _]. rewrite Eq in F1. apply Forall_app in F1. destruct F1 as [_ F1]. inversion F1 as [|? ? Tj _]; subst.
        exists (q ++ [j]), v. split; [rewrite <- app_assoc; auto|]. destruct Tj as [->| ->]; apply in_or_app; right; [left|right; left]; reflexivity.
      * intros C0. pose proof (j_chain _ _ _ _ H C0) as C1. rewrite Es in C1. eapply (chain_replace (fun x => B s x) (fun x => Hd s x) a b h); auto.
      * destruct (chain_ends (fun x => B s x) (fun x => Hd s x) a b h Ba Hd' s1 s2) as [Z1 Z2]. destruct (j_ends _ _ _ _ H) as [Z3 Z4].
        rewrite Es in Z3, Z4. split; congruence.
      * intros _ E. destruct s1; discriminate.
      * intros T0 x Hx. pose proof (j_tw _ _ _ _ H T0) as T1. pose proof (i_kt _ (s_h m I) _ _ _ Lh EK) as KT. change (hp m) with s in KT.
        rewrite (T1 h Hin) in KT. destruct KT as [Ta Tb]. destruct (Sd2 x Hx) as [->|[->|[Hs _]]]; auto.
    + destruct (IH seg0 (done ++ [h]) r seg) as [seg' [done' [E' J']]]; [|rewrite app_length; cbn [length]; lia|exists seg', done'; auto].
      assert (EQ : (done ++ [h]) ++ r = done ++ h :: r) by (rewrite <- app_assoc; auto).
      constructor; rewrite ?EQ; try apply H.
      * intros x Hx. apply (j_ts _ _ _ _ H). right; auto.
      * intros x Hx. destruct (j_par _ _ _ _ H x Hx) as [N|[h' [i' [E' Dn]]]]; auto. right. exists h', i'. split; auto. apply in_or_app; auto.
      * intros x Hx. destruct (j_closed _ _ _ _ H x Hx) as [[<-|Ht]|Cl]; auto. right. intros p Cp. unfold s in Cp. rewrite Ch in Cp. injection Cp as <-.
        unfold opened. congruence.
Qed.

(** the result for a list of different sides of root cells *)
Lemma expand_result seg0 : NoDup seg0 -> (forall x, In x seg0 -> exists r k, here m [r] /\ k < 4 /\ x = side m [r] k) ->
  exists seg, expand (nh s) m sf seg0 seg0 = Ok seg /\ NoDup seg /\ (seg0 <> [] -> seg <> []) /\
    (forall x, In x seg <-> exists r k q, In (side m [r] k) seg0 /\ k < 4 /\ here m [r] /\ x = side m (r :: q) k /\ reach r k q /\ ~ opened (r :: q)) /\
    (chain (fun a b => Hd s a = B s b) seg0 -> chain (fun a b => Hd s a = B s b) seg) /\
    B s (hd 0 seg) = B s (hd 0 seg0) /\ Hd s (last seg 0) = Hd s (last seg0 0) /\
    ((forall x, In x seg0 -> T s x = None) -> forall x, In x seg -> T s x = None).
Proof.
  intros N H0.
  assert (RN : forall r k, reach r k []). { intros r k. split; auto. intros q1 i q2 E. destruct q1; discriminate. }
  destruct (expand_J (nh s) seg0 [] seg0 seg0) as [seg [dn [E Jf]]]; [|simpl; lia|].
  - constructor; cbn [app]; auto using incl_refl.
    + intros x Hx. destruct (H0 x Hx) as [r [k [Hr [Lk ->]]]]. apply (side_good I); auto.
    + intros x Hx. left. destruct (H0 x Hx) as [r [k [Hr [Lk ->]]]]. apply (s_root m I); auto.
    + intros x Hx. destruct (H0 x Hx) as [r [k [Hr [Lk ->]]]]. exists r, k, []. auto.
    + intros r k q S0 Lk Hr Rq O. exists [], q. auto.
  - exists seg. split; auto. split; [apply (j_ns _ _ _ _ Jf)|]. split; [apply (j_ne _ _ _ _ Jf)|]. split; [|split; [apply (j_chain _ _ _ _ Jf)|split; [apply (j_ends _ _ _ _ Jf)|split; [apply (j_ends _ _ _ _ Jf)|apply (j_tw _ _ _ _ Jf)]]]].
    assert (CL : forall r k q, k < 4 -> here m [r] -> reach r k q -> In (side m (r :: q) k) seg -> ~ opened (r :: q)).
    { intros r k q Lk Hr Rq Hx. destruct (j_closed _ _ _ _ Jf _ Hx) as [[]|Cl]. apply Cl. apply (side_good I); auto. apply (reach_here r k q); auto. }
    intros x. split.
    + intros Hx. destruct (j_sound _ _ _ _ Jf x Hx) as [r [k [q [S0 [Lk [Hr [Ex Rq]]]]]]]. exists r, k, q. repeat (split; auto). subst x. eapply CL; eauto.
    + intros [r [k [q [S0 [Lk [Hr [-> [Rq O]]]]]]]]. destruct (j_all _ _ _ _ Jf r k q S0 Lk Hr Rq O) as [q1 [q2 [Eq Hx]]].
      destruct q2 as [|i q2]; [rewrite app_nil_r in Eq; subst; auto|]. exfalso. destruct Rq as [F1 O1].
      apply (CL r k q1); auto; [|apply (O1 q1 i q2); auto]. split; [rewrite Eq in F1; apply Forall_app in F1; tauto|].
      intros a1 i1 b1 Eu. apply (O1 a1 i1 (b1 ++ i :: q2)). rewrite Eq, Eu, <- app_assoc. auto.
Qed.
End EXP.
