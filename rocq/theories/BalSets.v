(** * The 2:1 rule on sets of cells, and what is_balanced checks (for C29, C30) *)
From Coq Require Import List Arith Bool Lia QArith.
From Verif Require Import Tree Forest LabelFacts Geom SpecGeom Dcel SpecDcel Quad SpecForest TreeFacts ForestFacts QuadFacts QuadSplit QuadInv SpecQuad QuadNb.
Import ListNotations.
Open Scope nat_scope.

(** a set of cells that contains with a child its parent and the other children *)
Record closedS (S : path -> Prop) : Prop := {
  c_up : forall a i, a <> [] -> S (a ++ [i]) -> S a;
  c_sib : forall a i j, a <> [] -> S (a ++ [i]) -> j < 4 -> S (a ++ [j]) }.
Definition leafS (S : path -> Prop) (p : path) : Prop := S p /\ forall i, ~ S (p ++ [i]).

Lemma too_coarse_mono (adj : nat -> nat -> nat -> nat -> Prop) (S S' : path -> Prop) p : (forall q, S q -> S' q) -> too_coarse adj S p -> too_coarse adj S' p.
Proof.
  intros H [k [q [j [i [c [N [Sq [[x Sx] [Ti Sc]]]]]]]]]. exists k, q, j, i, c. eauto 10.
Qed.
Lemma too_coarse_adj (adj adj' : nat -> nat -> nat -> nat -> Prop) (S : path -> Prop) p : (forall r k r' j, adj r k r' j -> adj' r k r' j) -> too_coarse adj S p -> too_coarse adj' S p.
Proof. intros H [k [q [j [i [c [N R]]]]]]. exists k, q, j, i, c. split; [eapply nb_adj; eauto|exact R]. Qed.
Lemma too_coarse_ext (adj : nat -> nat -> nat -> nat -> Prop) (S S' : path -> Prop) p : (forall q, S q <-> S' q) -> too_coarse adj S p <-> too_coarse adj S' p.
Proof. intros H. split; apply too_coarse_mono; apply H. Qed.
Lemma app2 {X} (q : list X) i c : q ++ [i; c] = (q ++ [i]) ++ [c].
Proof. rewrite <- app_assoc. auto. Qed.
Lemma closed_coarse (adj : nat -> nat -> nat -> nat -> Prop) (S : path -> Prop) p : closedS S -> (forall q k' q' j', nb adj q k' q' j' -> q' <> []) ->
  (too_coarse adj S p <-> exists k q j i c, nb adj p k q j /\ touches j i /\ S (q ++ [i; c])).
Proof.
  intros Cl NE. split.
  - intros [k [q [j [i [c [N [Sq [_ [Ti Sc]]]]]]]]]. exists k, q, j, i, c. auto.
  - intros [k [q [j [i [c [N [Ti Sc]]]]]]]. exists k, q, j, i, c. pose proof (NE _ _ _ _ N) as Nq. rewrite app2 in Sc.
    assert (Si : S (q ++ [i])) by (eapply (c_up S Cl); [|exact Sc]; destruct q; discriminate).
    rewrite app2. repeat split; auto. + eapply (c_up S Cl); eauto. + eauto.
Qed.
Lemma nb_nonempty (adj : nat -> nat -> nat -> nat -> Prop) p k q j : nb adj p k q j -> p <> [] /\ q <> [].
Proof. intros N. inversion N; subst; split; try discriminate; intros E; apply app_eq_nil in E; destruct E; discriminate. Qed.
Lemma nb_length (adj : nat -> nat -> nat -> nat -> Prop) p k q j : nb adj p k q j -> length q = length p.
Proof. induction 1; rewrite ?app_length in *; simpl; auto; lia. Qed.

(** a cell outside [S] whose same-level neighbour is refined twice: the leaf of
    [S] above it is too coarse *)
Lemma outside_coarse (adj : nat -> nat -> nat -> nat -> Prop) (S : path -> Prop) : closedS S -> (forall p, S p \/ ~ S p) -> (forall r k r' j, adj r k r' j -> S [r]) ->
  (forall r k r' j, adj r k r' j -> k < 4 /\ j < 4) ->
  forall v k q j i c, nb adj v k q j -> touches j i -> S (q ++ [i; c]) -> ~ S v ->
  exists u r, v = u ++ r /\ r <> [] /\ leafS S u /\ too_coarse adj S u.
Proof.
  intros Cl Dec Rt Lt v k q j i c N. revert i c.
  assert (NE : forall q k' q' j', nb adj q k' q' j' -> q' <> []) by (intros a b a' b' Z; apply (nb_nonempty _ _ _ _ _ Z)).
  assert (STEP : forall p k q j x y i c, nb adj p k q j -> x < 4 -> touches j y -> S ((q ++ [y]) ++ [i; c]) -> ~ S (p ++ [x]) ->
     (forall i c, touches j i -> S (q ++ [i; c]) -> ~ S p -> exists u r, p = u ++ r /\ r <> [] /\ leafS S u /\ too_coarse adj S u) ->
     exists u r, p ++ [x] = u ++ r /\ r <> [] /\ leafS S u /\ too_coarse adj S u).
  { intros p' k' q' j' x y i c N' Lx Ty Sc NS IH.
    assert (S2 : S (q' ++ [y; i])).
    { rewrite app2. rewrite app2 in Sc. eapply (c_up S Cl); [|exact Sc]. intros E. apply app_eq_nil in E. destruct E; discriminate. }
    destruct (Dec p') as [Sp|NSp].
    - exists p', [x]. split; auto. split; [discriminate|]. split.
      + split; auto. intros z Sz. apply NS. eapply (c_sib S Cl); eauto. apply (nb_nonempty _ _ _ _ _ N').
      + apply (closed_coarse adj S p' Cl NE). exists k', q', j', y, i. auto.
    - destruct (IH y i Ty S2 NSp) as [u [r [-> [Nr R]]]]. exists u, (r ++ [x]). rewrite app_assoc. split; auto. split; [|exact R].
      destruct r; discriminate. }
  induction N as [r k r' j A|p k q j N IH|p k q j N IH|p x Np Lx|p x Np Lx]; intros i c Ti Sc NS.
  - exfalso. apply NS. eapply Rt; eauto.
  - destruct (nb_sides _ _ _ _ _ Lt N) as [Lk [Lj _]]. apply (STEP p k q j k ((j + 1) mod 4) i c N); auto. right; auto.
  - destruct (nb_sides _ _ _ _ _ Lt N) as [Lk [Lj _]]. apply (STEP p k q j ((k + 1) mod 4) j i c N); auto. left; auto.
  - exfalso. apply NS. rewrite app2 in Sc. apply (c_up S Cl) in Sc; [|intros E; apply app_eq_nil in E; destruct E as [E _]; apply app_eq_nil in E; destruct E; discriminate].
    apply (c_up S Cl) in Sc; [|intros E; apply app_eq_nil in E; destruct E; discriminate]. eapply (c_sib S Cl); eauto.
  - exfalso. apply NS. rewrite app2 in Sc. apply (c_up S Cl) in Sc; [|intros E; apply app_eq_nil in E; destruct E as [E _]; apply app_eq_nil in E; destruct E; discriminate].
    apply (c_up S Cl) in Sc; [|intros E; apply app_eq_nil in E; destruct E; discriminate]. eapply (c_sib S Cl); eauto.
Qed.

(** ** submeshes as sets *)
Notation insub m fl := (in_sub (cells m) fl).
Lemma insub_here m fl p : insub m fl p -> here m p.
Proof. intros [n [F _]]. apply here_fget. eauto. Qed.
Lemma insub_None m p : insub m None p <-> here m p.
Proof. rewrite here_fget. unfold in_sub. simpl. firstorder. Qed.
Lemma insub_dec m fl p : {insub m fl p} + {~ insub m fl p}.
Proof.
  unfold in_sub. destruct (fget (cells m) p) as [n|]; [|right; intros [n [E _]]; discriminate].
  destruct fl as [g|]; simpl.
  - destruct (mem_flag g (m_flags (n_meta n))) eqn:E; [left; exists n; auto|right; intros [n' [[= <-] E']]; congruence].
  - left. exists n. auto.
Qed.
Lemma insub_marked (f : forest (list nat)) g p : in_sub f (Some g) p <-> marked_at f p g = true.
Proof. unfold in_sub, marked_at. destruct (fget f p) as [n|]; simpl; split; [intros [n' [[= <-] H]]|eauto|intros [n' [E _]]|]; auto; discriminate. Qed.
Lemma has_kids_sub (f : forest (list nat)) p n fl : p <> [] -> fget f p = Some n -> (has_children n fl = true <-> exists x, in_sub f fl (p ++ [x])).
Proof.
  intros Np Fp. rewrite has_children_spec. unfold in_sub. split.
  - intros [i [k [E H]]]. exists i, k. rewrite fget_snoc, Fp, E by auto. auto.
  - intros [i [k [E H]]]. rewrite fget_snoc, Fp in E by auto. destruct (nth_error (n_slots n) i) as [[o|]|] eqn:Ei; try discriminate.
    injection E as <-. exists i, o. auto.
Qed.
Lemma cell_kids_sub m p fl : p <> [] -> (cell_has_children m p fl = true <-> exists x, insub m fl (p ++ [x])).
Proof.
  intros Np. unfold cell_has_children. destruct (fget (cells m) p) as [n|] eqn:Fp; [apply has_kids_sub; auto|].
  split; [discriminate|]. intros [x [k [E _]]]. rewrite fget_snoc, Fp in E by auto. discriminate.
Qed.
Lemma sub_leaf_set (f : forest (list nat)) fl p : p <> [] -> (sub_leaf f fl p <-> leafS (in_sub f fl) p).
Proof.
  intros Np. unfold sub_leaf, is_leaf_of, leafS. split.
  - intros [n [F [H1 H2]]]. split; [exists n; auto|]. intros i [k [E H]]. rewrite fget_snoc, F in E by auto.
    destruct (nth_error (n_slots n) i) as [[o|]|] eqn:Ei; try discriminate. injection E as <-. apply (H2 i o Ei H).
  - intros [[n [F H1]] H2]. exists n. split; auto. split; auto. intros i k E H. apply (H2 i). exists k. rewrite fget_snoc, F, E by auto. auto.
Qed.

(** ** one cell *)
Section CHECK.
Context {m : mesh2} (I : sinv m).
Local Notation s := (hp m).

Lemma too_fine_spec p k fl : here m p -> k < 4 -> exists b, too_fine m (side m p k) fl = Ok b /\
  (b = true <-> exists q j i c, nb (radj m) p k q j /\ insub m fl q /\ (exists x, insub m fl (q ++ [x])) /\ touches j i /\ insub m fl (q ++ [i; c])).
Proof.
  intros Hp Lk. unfold too_fine, get_neighbors.
  destruct (T s (side m p k)) as [t|] eqn:ET.
  - destruct (twin_side I p k t Hp Lk ET) as [q [j [Hq [Lj [-> ET']]]]]. destruct (side_good I q j Hq Lj) as [_ [-> _]].
    assert (N : nb (radj m) p k q j) by (apply (twin_nb I); auto).
    assert (U : forall q' j', here m q' -> nb (radj m) p k q' j' -> q' = q /\ j' = j).
    { intros q' j' Hq' N'. destruct (nb_sides _ _ _ _ _ radj_lt N') as [_ [Lj' _]].
      assert (E : T s (side m p k) = Some (side m q' j')) by (apply (twin_nb I); auto). rewrite ET in E. injection E as E.
      destruct (side_inj I q q' j j' Hq Hq' Lj Lj' E). auto. }
    pose proof (path_nonempty q Hq) as Nq.
    assert (G : exists r, (match fl with None => Ok (Some q) | Some g => Ok (if marked_at (cells m) q g then Some q else None) end) = @Ok (option path) r /\
                 ((r = None /\ ~ insub m fl q) \/ (r = Some q /\ insub m fl q))).
    { destruct fl as [g|].
      - pose proof (insub_marked (cells m) g q) as IM. destruct (marked_at (cells m) q g); [exists (Some q)|exists None]; (split; [reflexivity|]); [right|left]; (split; [reflexivity|]); rewrite IM; [reflexivity|discriminate].
      - exists (Some q). split; auto. right. split; auto. apply insub_None; auto. }
    destruct G as [r [-> [[-> NS]|[-> Sq]]]]; cbn [bind].
    + exists false. split; auto. split; [discriminate|]. intros [q' [j' [i [c [N' [Sq' _]]]]]].
      destruct (U q' j' (insub_here _ _ _ Sq') N') as [-> ->]. contradiction.
    + destruct (cell_has_children m q fl) eqn:HC.
      * destruct (proj1 (cell_kids_sub m q fl Nq) HC) as [x Sx]. pose proof (insub_here _ _ _ Sx) as Hx.
        destruct (s_fam m I q x Nq Hx) as [Lx F]. destruct (s_kids m I q j Nq (F j Lj)) as [-> _].
        destruct (side_good I (q ++ [j]) j (F j Lj) Lj) as [_ [-> _]]. destruct (side_good I (q ++ [(j + 1) mod 4]) j (F _ (m4_lt _)) Lj) as [_ [-> _]].
        exists (cell_has_children m (q ++ [j]) fl || cell_has_children m (q ++ [(j + 1) mod 4]) fl). split; auto.
        assert (NN : forall y, q ++ [y] <> []) by (intros y E; apply app_eq_nil in E; destruct E; discriminate).
        rewrite orb_true_iff, !cell_kids_sub by auto. split.
        -- intros [[c Sc]|[c Sc]]; rewrite <- app2 in Sc; [exists q, j, j, c|exists q, j, ((j + 1) mod 4), c]; repeat split; eauto; [left|right]; auto.
        -- intros [q' [j' [i [c [N' [Sq' [_ [Ti Sc]]]]]]]]. destruct (U q' j' (insub_here _ _ _ Sq') N') as [-> ->]. rewrite app2 in Sc.
           destruct Ti as [->| ->]; eauto.
      * exists false. split; auto. split; [discriminate|]. intros [q' [j' [i [c [N' [Sq' [Sx _]]]]]]].
        destruct (U q' j' (insub_here _ _ _ Sq') N') as [-> ->]. apply (cell_kids_sub m q fl Nq) in Sx. congruence.
  - exists false. split; auto. split; [discriminate|]. intros [q' [j' [i [c [N' [Sq' _]]]]]].
    destruct (nb_sides _ _ _ _ _ radj_lt N') as [_ [Lj' _]]. assert (Hq' := insub_here _ _ _ Sq').
    assert (E : T s (side m p k) = Some (side m q' j')) by (apply (twin_nb I); auto). congruence.
Qed.
Lemma cell_too_fine_spec p fl : here m p -> exists b, cell_too_fine m p fl = Ok b /\ (b = true <-> too_coarse (radj m) (insub m fl) p).
Proof.
  intros Hp. unfold cell_too_fine. destruct (proj1 (here_fget m p) Hp) as [n Fp]. rewrite Fp, (data_sides I p n Fp).
  assert (G : forall l, (forall k, In k l -> k < 4) -> exists b, any_too_fine m (map (side m p) l) fl = Ok b /\
     (b = true <-> exists k, In k l /\ exists q j i c, nb (radj m) p k q j /\ insub m fl q /\ (exists x, insub m fl (q ++ [x])) /\ touches j i /\ insub m fl (q ++ [i; c]))).
  { induction l as [|k l IH]; intros Hl.
    - exists false. split; auto. split; [discriminate|]. intros [k [[] _]].
    - destruct (IH (fun x Hx => Hl x (or_intror Hx))) as [b [E Eb]]. destruct (too_fine_spec p k fl Hp (Hl k (or_introl eq_refl))) as [b' [E' Eb']].
      cbn [map any_too_fine]. rewrite E'. cbn [bind]. destruct b'.
      + exists true. split; auto. split; auto. intros _. exists k. split; [left; auto|]. apply Eb'. auto.
      + exists b. split; auto. rewrite Eb. split.
        * intros [k' [Ik R]]. exists k'. split; [right; auto|auto].
        * intros [k' [[<-|Ik] R]]; [apply Eb' in R; discriminate|exists k'; auto]. }
  destruct (G [0; 1; 2; 3]) as [b [E Eb]]; [intros k; simpl; lia|]. exists b. split; auto. rewrite Eb. unfold too_coarse. split.
  - intros [k [_ [q [j [i [c R]]]]]]. exists k, q, j, i, c. auto.
  - intros [k [q [j [i [c [N R]]]]]]. exists k. destruct (nb_sides _ _ _ _ _ radj_lt N) as [Lk _]. split; [simpl; lia|]. exists q, j, i, c. auto.
Qed.
Lemma is_balanced_spec fl : exists b, is_balanced fl m = Ok b /\ (b = true <-> two_to_one (radj m) (cells m) fl).
Proof.
  unfold is_balanced, two_to_one.
  assert (G : forall l, (forall p, In p l -> here m p) -> exists b, none_too_fine m l fl = Ok b /\ (b = true <-> forall p, In p l -> ~ too_coarse (radj m) (insub m fl) p)).
  { induction l as [|p l IH]; intros Hl.
    - exists true. split; auto. split; auto.
    - destruct (IH (fun x Hx => Hl x (or_intror Hx))) as [b [E Eb]]. destruct (cell_too_fine_spec p fl (Hl p (or_introl eq_refl))) as [b' [E' Eb']].
      cbn [none_too_fine]. rewrite E'. cbn [bind]. destruct b'.
      + exists false. split; auto. split; [discriminate|]. intros H. exfalso. apply (H p); [left; auto|apply Eb'; auto].
      + exists b. split; auto. rewrite Eb. split.
        * intros H q [<-|Iq]; auto. intros Z. apply Eb' in Z. discriminate.
        * intros H q Iq. apply H. right; auto. }
  assert (L : forall p, In p (map fst (fget_leaves (cells m) None fl BreadthFirst)) <-> sub_leaf (cells m) fl p).
  { intros p. rewrite in_map_iff. split.
    - intros [[p' n] [E Ip]]. cbn [fst] in E. subst p'. apply in_fget_leaves in Ip. exists n. tauto.
    - intros [n [F H]]. exists (p, n). split; auto. apply in_fget_leaves. simpl. tauto. }
  destruct (G (map fst (fget_leaves (cells m) None fl BreadthFirst))) as [b [E Eb]].
  { intros p Ip. apply L in Ip. destruct Ip as [n [F _]]. apply here_fget. eauto. }
  exists b. split; auto. rewrite Eb. split; intros H p Hp; apply H; apply L; auto.
Qed.
End CHECK.
