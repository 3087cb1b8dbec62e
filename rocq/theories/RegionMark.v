(** * Lemmas about marking regions (for C68) *)
From Coq Require Import List Arith Bool Lia QArith.
From Verif Require Import Tree Forest SpecForest TreeFacts ForestFacts LabelFacts Geom SpecGeom Dcel SpecDcel Segments Quad SpecQuad QuadFacts QuadInv QuadHist Solver Region SpecRegion RegionFacts RegionMain.
Import ListNotations.
Open Scope nat_scope.

Definition mark_ent (g : flag) (M : rmesh) (x : ent) : rmesh :=
  match x with Vtx v => mark_v g M v | Hed h => mark_h g M h | Cel p => mark_c g M p end.
Definition verts (M : rmesh) (x : ent) : list nat :=
  match x with Vtx v => [v] | Hed h => he_vertices (hp (rm M)) h | Cel p => cell_verts (rm M) p end.
Definition tst (f : pt -> bool) (strict : bool) (M : rmesh) (x : ent) : bool := inside f strict (hp (rm M)) (verts M x).
Definition pres (M : rmesh) (x : ent) : Prop := match x with Cel p => present (cells (rm M)) p = true | _ => True end.

Record marked_by (g : flag) (X : ent -> Prop) (M M' : rmesh) : Prop := {
  mb_hp : hp (rm M') = hp (rm M); mb_info : forall p, info (cells (rm M')) p = info (cells (rm M)) p;
  mb_root : n_root M' = n_root M; mb_ed : edits (rm M) (rm M');
  mb_same : same_but (only_flag g) (cells (rm M)) (cells (rm M'));
  mb_lab : forall x k, labelled M' x k <-> labelled M x k \/ (k = g /\ X x) }.

Lemma edits_trans a b c : edits a b -> edits b c -> edits a c.
Proof. intros H1 H2. revert H1. induction H2 as [m|m m' m'' H IH S]; auto. intros H1. apply (ed_more a m' m''); auto. Qed.
Lemma mb_refl g M : marked_by g (fun _ => False) M M.
Proof. constructor; auto; [constructor|apply same_but_refl|]. intros; tauto. Qed.
Lemma mb_ext g X Y M M' : (forall x, X x <-> Y x) -> marked_by g X M M' -> marked_by g Y M M'.
Proof. intros E [a b c d e f]. constructor; auto. intros x k. rewrite f, E. tauto. Qed.
Lemma mb_trans g X Y M M' M'' : marked_by g X M M' -> marked_by g Y M' M'' -> marked_by g (fun x => X x \/ Y x) M M''.
Proof.
  intros [a b c d e f] [a' b' c' d' e' f']. constructor; try congruence.
  - eapply edits_trans; eauto.
  - eapply same_but_trans; eauto.
  - intros x k. rewrite f', f. tauto.
Qed.
Lemma mb_pres g X M M' x : marked_by g X M M' -> (pres M' x <-> pres M x).
Proof.
  intros [_ b _ _ _ _]. destruct x as [| |p]; simpl; try tauto. specialize (b p). unfold info, present in *.
  destruct (fget (cells (rm M')) p), (fget (cells (rm M)) p); simpl in *; split; congruence.
Qed.
Lemma mb_verts g X M M' x : marked_by g X M M' -> verts M' x = verts M x.
Proof.
  intros [a b _ _ _ _]. destruct x as [| |p]; simpl; auto; [rewrite a; auto|]. unfold cell_verts. specialize (b p). unfold info in b.
  rewrite a. destruct (fget (cells (rm M')) p), (fget (cells (rm M)) p); simpl in *; congruence.
Qed.
Lemma mb_tst g X M M' f st x : marked_by g X M M' -> tst f st M' x = tst f st M x.
Proof. intros H. unfold tst. rewrite (mb_verts _ _ _ _ _ H), (mb_hp _ _ _ _ H). auto. Qed.
Lemma mb_sides g X M M' p : marked_by g X M M' -> cell_sides (rm M') p = cell_sides (rm M) p.
Proof.
  intros [_ b _ _ _ _]. unfold cell_sides. specialize (b p). unfold info in b.
  destruct (fget (cells (rm M')) p), (fget (cells (rm M)) p); simpl in *; congruence.
Qed.

Lemma same_but_mark g p (f : forest (list nat)) : same_but (only_flag g) f (fupd p (mark_here g) f).
Proof.
  apply (relabelled_same (only_flag g) (relabelled_mark p g f)). intros q l k N. unfold only_flag in N. destruct (LabelFacts.peq p q); auto.
  rewrite mem_add. assert (E : (k =? g) = false) by (apply Nat.eqb_neq; auto). rewrite E. destruct (mem_flag k l); auto.
Qed.
Lemma mb_one g M x : pres M x -> marked_by g (eq x) M (mark_ent g M x).
Proof.
  intros Px. constructor.
  - destruct x; auto.
  - intros p. destruct x; auto. apply mark_info.
  - destruct x; auto.
  - destruct x; simpl; try constructor. apply (ed_more _ (rm M)); constructor.
  - destruct x; simpl; try apply same_but_refl. apply same_but_mark.
  - intros y k. destruct x as [v|h|p], y as [w|h'|q]; simpl; try (split; [auto|intros [A|[_ A]]; [exact A|discriminate]]).
    + unfold set_label. destruct (Nat.eqb_spec w v) as [->|N], (Nat.eqb_spec k g) as [->|N']; simpl; split; auto; intros [A|[A B]]; auto; congruence.
    + unfold set_label. destruct (Nat.eqb_spec h' h) as [->|N], (Nat.eqb_spec k g) as [->|N']; simpl; split; auto; intros [A|[A B]]; auto; congruence.
    + destruct (Nat.eq_dec k g) as [->|N].
      * rewrite marked_mark, orb_true_iff, andb_true_iff. rewrite (LabelFacts.peq_true p q). simpl in Px. split.
        -- intros [A|[-> B]]; auto.
        -- intros [A|[_ A]]; auto. injection A as <-. auto.
      * rewrite <- (@same_but_marked _ (only_flag g) (cells (rm M)) _ q k (same_but_mark g p _)); [|exact N]. split; auto. intros [A|[A _]]; [auto|congruence].
Qed.
(** marking the entities of a list that pass a test *)
Lemma mb_list g (t : ent -> bool) : forall l M, (forall x, In x l -> pres M x) ->
  marked_by g (fun x => In x l /\ t x = true) M (fold_left (fun M x => if t x then mark_ent g M x else M) l M).
Proof.
  induction l as [|y l IH]; intros M P; cbn [fold_left].
  - apply (mb_ext g (fun _ => False)); [|apply mb_refl]. intros x. simpl. tauto.
  - destruct (t y) eqn:E.
    + pose proof (mb_one g M y (P y (or_introl eq_refl))) as M1. assert (P' : forall x, In x l -> pres (mark_ent g M y) x) by (intros x Ix; apply (mb_pres _ _ _ _ _ M1), P; right; auto).
      refine (mb_ext _ _ _ _ _ _ (mb_trans _ _ _ _ _ _ M1 (IH _ P'))). intros x; simpl. split.
      * intros [A|[A B]]; [subst; auto|auto].
      * intros [[A|A] B]; auto.
    + assert (P' : forall x, In x l -> pres M x) by (intros; apply P; right; auto). refine (mb_ext _ _ _ _ _ _ (IH M P')). intros x; simpl. split.
      * intros [A B]; auto.
      * intros [[A|A] B]; [subst; congruence|auto].
Qed.
(** the entities that are looked at in a cell and at a boundary half-edge *)
Definition ents_cell (M : rmesh) (e : entity) (p : path) : list ent :=
  match e with EVertex => map Vtx (cell_verts (rm M) p) | EHalfEdge => map Hed (cell_sides (rm M) p) | ECell => [Cel p] | EOther => [] end.
Definition ents_edge (M : rmesh) (e : entity) (h : nat) : list ent :=
  match e with EVertex => map Vtx (he_vertices (hp (rm M)) h) | EHalfEdge => [Hed h]
  | ECell => match hcell (he (hp (rm M)) h) with Some p => [Cel p] | None => [] end | EOther => [] end.
Lemma fold_map {A B C} (f : A -> C -> A) (h : B -> C) : forall l a, fold_left f (map h l) a = fold_left (fun a b => f a (h b)) l a.
Proof. induction l; simpl; auto. Qed.
Lemma fold_ext {A B} (f f' : A -> B -> A) (P : A -> Prop) l : (forall a b, P a -> In b l -> f a b = f' a b) -> (forall a b, P a -> In b l -> P (f' a b)) -> forall a, P a -> fold_left f l a = fold_left f' l a.
Proof. revert f f'. induction l as [|b l IH]; intros f f' E Pf a Pa; simpl; auto. rewrite E; auto; [|left; auto]. apply IH; intros; [apply E|apply Pf|apply Pf]; auto; [right|right|left]; auto. Qed.
Lemma inside1 f st s v : inside f st s [v] = f (vx s v).
Proof. unfold inside. destruct st; simpl; [rewrite andb_true_r|rewrite orb_false_r]; auto. Qed.
Lemma mark_in_cell_eq g f e st X M0 M p : marked_by g X M0 M ->
  mark_in_cell g f e st M p = fold_left (fun M x => if tst f st M0 x then mark_ent g M x else M) (ents_cell M0 e p) M.
Proof.
  intros H. assert (EV : cell_verts (rm M) p = cell_verts (rm M0) p) by apply (mb_verts _ _ _ _ (Cel p) H).
  destruct e; simpl; auto.
  - rewrite fold_map, EV, (mb_hp _ _ _ _ H). apply (fold_ext _ _ (fun _ => True)); auto. intros a b _ _. unfold tst. simpl. rewrite inside1. auto.
  - rewrite fold_map, (mb_sides _ _ _ _ p H), (mb_hp _ _ _ _ H). auto.
  - unfold tst. simpl. rewrite EV, (mb_hp _ _ _ _ H). auto.
Qed.
Lemma mark_on_edge_eq g f e st X M0 M h : marked_by g X M0 M -> e <> EOther -> hcell (he (hp (rm M0)) h) <> None ->
  mark_on_edge g f e st M h = Ok (fold_left (fun M x => if tst f st M0 x then mark_ent g M x else M) (ents_edge M0 e h) M).
Proof.
  intros H Ne Nc. destruct e; try congruence; unfold mark_on_edge, ents_edge; rewrite (mb_hp _ _ _ _ H).
  - rewrite fold_map. f_equal. apply (fold_ext _ _ (fun _ => True)); auto. intros a b _ _. unfold tst. simpl. rewrite inside1. auto.
  - auto.
  - destruct (hcell (he (hp (rm M0)) h)) as [p|]; [|congruence]. simpl. unfold tst. simpl.
    replace (cell_verts (rm M) p) with (cell_verts (rm M0) p) by (symmetry; apply (mb_verts _ _ _ _ (Cel p) H)). auto.
Qed.
Lemma mark_cells g f e st M0 : forall ps X M, marked_by g X M0 M -> (forall p, In p ps -> present (cells (rm M0)) p = true) ->
  marked_by g (fun x => X x \/ exists p, In p ps /\ In x (ents_cell M0 e p) /\ tst f st M0 x = true) M0 (fold_left (mark_in_cell g f e st) ps M).
Proof.
  induction ps as [|p ps IH]; intros X M H P; cbn [fold_left].
  - refine (mb_ext _ _ _ _ _ _ H). intros x; simpl; split; auto. intros [A|[p [[] _]]]; auto.
  - rewrite (mark_in_cell_eq g f e st X M0 M p H).
    assert (Pl : forall x, In x (ents_cell M0 e p) -> pres M x).
    { intros x Ix. apply (mb_pres _ _ _ _ _ H). destruct e; simpl in Ix; [apply in_map_iff in Ix; destruct Ix as [? [<- _]]; simpl; auto|apply in_map_iff in Ix; destruct Ix as [? [<- _]]; simpl; auto| |destruct Ix].
      destruct Ix as [<-|[]]. simpl. apply P. left; auto. }
    pose proof (mb_trans _ _ _ _ _ _ H (mb_list g (tst f st M0) _ M Pl)) as H1. specialize (IH _ _ H1 (fun q Iq => P q (or_intror Iq))).
    refine (mb_ext _ _ _ _ _ _ IH). intros x; simpl. split.
    + intros [[A|[A B]]|[q [A B]]]; auto; right; [exists p|exists q]; auto.
    + intros [A|[q [[<-|A] B]]]; auto. right. exists q. auto.
Qed.
Lemma mark_edges g f e st M0 : e <> EOther -> forall hs X M, marked_by g X M0 M ->
  (forall h, In h hs -> exists p, hcell (he (hp (rm M0)) h) = Some p /\ present (cells (rm M0)) p = true) ->
  exists M', fold_res (mark_on_edge g f e st) hs M = Ok M' /\
    marked_by g (fun x => X x \/ exists h, In h hs /\ In x (ents_edge M0 e h) /\ tst f st M0 x = true) M0 M'.
Proof.
  intros Ne. induction hs as [|h hs IH]; intros X M H P; cbn [fold_res].
  - exists M. split; auto. refine (mb_ext _ _ _ _ _ _ H). intros x; simpl; split; auto. intros [A|[p [[] _]]]; auto.
  - destruct (P h (or_introl eq_refl)) as [p [Ep Pp]]. rewrite (mark_on_edge_eq g f e st X M0 M h H Ne) by congruence.
    assert (Pl : forall x, In x (ents_edge M0 e h) -> pres M x).
    { intros x Ix. apply (mb_pres _ _ _ _ _ H). destruct e; simpl in Ix; [destruct Ix as [<-|[<-|[]]]; simpl; auto|destruct Ix as [<-|[]]; simpl; auto| |destruct Ix].
      rewrite Ep in Ix. destruct Ix as [<-|[]]. simpl. auto. }
    pose proof (mb_trans _ _ _ _ _ _ H (mb_list g (tst f st M0) _ M Pl)) as H1. cbn [bind].
    destruct (IH _ _ H1 (fun q Iq => P q (or_intror Iq))) as [M' [E' H']]. exists M'. split; auto.
    refine (mb_ext _ _ _ _ _ _ H'). intros x; simpl. split.
    + intros [[A|[A B]]|[q [A B]]]; auto; right; [exists h|exists q]; auto.
    + intros [A|[q [[<-|A] B]]]; auto. right. exists q. auto.
Qed.
