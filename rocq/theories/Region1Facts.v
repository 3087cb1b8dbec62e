(** * Lemmas about regions of one-dimensional meshes (for C73, C74) *)
From Coq Require Import List Arith Bool Lia QArith Lqa.
From Verif Require Import Tree Forest History SpecForest TreeFacts ForestFacts LabelFacts GenFacts Geom SpecGeom Mesh1D Mesh1DFacts Prop_1D Fem Dof SpecDof Solver NodalFacts Region RegionDof Region1 SpecRegion1.
Import ListNotations.
From Verif Require QuadBal.
Open Scope nat_scope.

Lemma qred_eq x y : (Qred x == y)%Q <-> (x == y)%Q.
Proof. rewrite Qred_correct. tauto. Qed.
Lemma qred_qred x : Qred (Qred x) = Qred x.
Proof. apply Qred_complete, Qred_correct. Qed.
Lemma verts1_in (f : forest itv) p v : In v (verts1 f p) <-> Qred v = v /\ end_of f p v.
Proof.
  unfold verts1, end_of. destruct (fget f p) as [n|]; [|split; [intros []|intros [_ [n [[=] _]]]]]. cbn [itv_verts In]. split.
  - intros [<-|[<-|[]]]; (split; [apply qred_qred|]); exists n; split; auto; [left|right]; apply Qred_correct.
  - intros [E [n' [[= <-] [A|A]]]]; [left|right; left]; rewrite <- E; apply Qred_complete; symmetry; auto.
Qed.
Lemma leaves1_in {A} (f : forest A) sf p : In p (map fst (fget_leaves f None sf BreadthFirst)) <-> sub_leaf f sf p.
Proof.
  rewrite in_map_iff. split.
  - intros [[q c] [<- H]]. apply in_fget_leaves in H. exists c. tauto.
  - intros [n [H1 H2]]. exists (p, n). split; auto. apply in_fget_leaves. split; auto. split; auto. exact Logic.I.
Qed.

(** ** the ends of the domain *)
Section Ends.
Context (a b : Q) (M : mesh1) (sf : option flag).
Hypothesis HM : line_mesh a b M.
Hypothesis Rt : submesh_rooted (m1_cells M) sf.
Local Notation f := (m1_cells M).
Lemma lm_gen : fgen ikid f.
Proof. destruct HM as [_ [_ [l [P E]]]]. eapply run_gen; eauto. intros i t H; destruct i; discriminate. Qed.
Lemma leaf_bounds p n : fget f p = Some n -> is_leaf_of sf n -> (a <= fst (n_data n) /\ fst (n_data n) < snd (n_data n) /\ snd (n_data n) <= b)%Q.
Proof.
  destruct HM as [_ [T _]]. intros E L. destruct (order_in f sf p n E L) as [m Em].
  apply (tiles_nth _ _ _ (order_tiles f sf a b lm_gen Rt T) m). exact (order_data f sf m p n Em).
Qed.
Lemma leaf_left p n q c : fget f p = Some n -> is_leaf_of sf n -> fget f q = Some c -> is_leaf_of sf c -> (fst (n_data n) == fst (n_data c))%Q -> p = q.
Proof.
  destruct HM as [_ [T _]]. intros E L E' L' D. destruct (order_in f sf p n E L) as [i Ei]. destruct (order_in f sf q c E' L') as [j Ej].
  assert (i = j) by (eapply (tiles_inj_fst a b _ i j _ _ (order_tiles f sf a b lm_gen Rt T)); [exact (order_data f sf i p n Ei)|exact (order_data f sf j q c Ej)|exact D]).
  subst j. rewrite Ei in Ej. injection Ej as -> _. auto.
Qed.
Lemma leaf_right p n q c : fget f p = Some n -> is_leaf_of sf n -> fget f q = Some c -> is_leaf_of sf c -> (snd (n_data n) == snd (n_data c))%Q -> p = q.
Proof.
  destruct HM as [_ [T _]]. intros E L E' L' D. destruct (order_in f sf p n E L) as [i Ei]. destruct (order_in f sf q c E' L') as [j Ej].
  assert (i = j) by (eapply (tiles_inj_snd a b _ i j _ _ (order_tiles f sf a b lm_gen Rt T)); [exact (order_data f sf i p n Ei)|exact (order_data f sf j q c Ej)|exact D]).
  subst j. rewrite Ei in Ej. injection Ej as -> _. auto.
Qed.
Lemma box1 : bounding_box1 M = Ok (Qred a, Qred b).
Proof.
  destruct HM as [Ne [T _]]. unfold bounding_box1. destruct f as [|t r] eqn:Ef; [congruence|]. destruct (rev (t :: r)) as [|u w] eqn:Er; [apply (f_equal (@length _)) in Er; rewrite rev_length in Er; discriminate|].
  f_equal. f_equal; apply Qred_complete.
  - apply (tiles_first _ _ _ _ T). reflexivity.
  - assert (E : t :: r = rev w ++ [u]) by (rewrite <- (rev_involutive (t :: r)), Er; reflexivity).
    apply (tiles_last _ _ _ T (length (rev w))).
    + rewrite E, map_app, nth_error_app2; rewrite map_length; auto. rewrite Nat.sub_diag. reflexivity.
    + rewrite E, map_length, app_length. simpl. lia.
Qed.
Lemma bverts1 : m1_per M = false -> get_boundary_vertices1 M = Ok (Some (Qred a, Qred b)).
Proof.
  intros P. pose proof box1 as B. unfold bounding_box1, get_boundary_vertices1 in *. rewrite P. destruct f as [|t r]; [discriminate|]. destruct (rev (t :: r)); [discriminate|]. congruence.
Qed.
Lemma bcells1 : m1_per M = false -> exists p n q c, get_boundary_cells1 M sf = Ok (Some (p, q)) /\
    fget f p = Some n /\ is_leaf_of sf n /\ (fst (n_data n) == a)%Q /\ fget f q = Some c /\ is_leaf_of sf c /\ (snd (n_data c) == b)%Q.
Proof.
  intros P. destruct HM as [Ne [T [l [Pl E]]]]. destruct (C17_boundary_cells l f sf a b Pl E Rt T Ne) as [p [n [q [c [B H]]]]].
  exists p, n, q, c. split; auto. unfold get_boundary_cells1. rewrite P, B. reflexivity.
Qed.
(** a leaf with an end at an end of the domain is the first or the last *)
Lemma end_leaf p n q c r : fget f p = Some n -> is_leaf_of sf n -> (fst (n_data n) == a)%Q -> fget f q = Some c -> is_leaf_of sf c -> (snd (n_data c) == b)%Q ->
  sub_leaf f sf r -> (end_of f r a \/ end_of f r b) <-> r = p \/ r = q.
Proof.
  intros Ep Lp Ap Eq Lq Bq [m [Em Lm]]. destruct (leaf_bounds r m Em Lm) as [B1 [B2 B3]]. unfold end_of. split.
  - intros [[m' [E' A]]|[m' [E' A]]]; rewrite Em in E'; injection E' as <-.
    + left. apply (leaf_left r m p n); auto. destruct A; lra.
    + right. apply (leaf_right r m q c); auto. destruct A; lra.
  - intros [-> | ->]; [left; exists n|right; exists c]; split; auto; [left|right]; symmetry; auto.
Qed.
(** ** get_region *)
Lemma cand_in ty bv p x q : In (x, q) (candidates1 M ty bv p) <-> q = p /\ kind1 x = ty /\ canonical x /\ part_of1 f p x /\
  match x, bv with Vtx1 v, Some l => exists w, In w l /\ (v == w)%Q | _, _ => True end.
Proof.
  assert (PB : forall v, (match bv with None => true | Some l => existsb (Qeq_bool v) l end = true) <-> match bv with Some l => exists w, In w l /\ (v == w)%Q | None => True end).
  { intros v. destruct bv as [l|]; [|tauto]. rewrite existsb_exists. split; intros [w [A B]]; exists w; split; auto; apply Qeq_bool_iff; auto. }
  destruct ty; cbn [candidates1].
  - rewrite in_map_iff. split.
    + intros [v [[= <- <-] F]]. apply filter_In in F. destruct F as [A B]. apply PB in B. apply verts1_in in A. destruct A as [A C]. cbn. auto.
    + destruct x as [v|c]; [|intros [_ [[=] _]]]. intros [-> [_ [C [A B]]]]. exists v. split; auto. apply filter_In. rewrite verts1_in, PB. auto.
  - split; [intros []|destruct x; intros [_ [[=] _]]].
  - cbn [In]. split.
    + intros [[= <- <-]|[]]. cbn. auto.
    + destruct x as [v|c]; [intros [_ [[=] _]]|]. intros [-> [_ [_ [A _]]]]. simpl in A. subst c. auto.
  - split; [intros []|destruct x; intros [_ [[=] _]]].
Qed.
Lemma get_spec fl ty onb : (onb = true -> m1_per M = false) ->
  exists l, get_region_cells1 fl ty onb sf M = Ok l /\
    forall x p, In (x, p) l <-> canonical x /\ kind1 x = ty /\ found1 a b M sf onb x p /\ (forall g, fl = Some g -> labelled1 M x g).
Proof.
  intros P. assert (LB : forall x, canonical x -> (ent_marked1 M fl x = true <-> forall g, fl = Some g -> labelled1 M x g)).
  { intros x Cx. unfold ent_marked1. destruct fl as [g|]; [|split; [intros _ g [=]|auto]]. destruct x as [v|p]; simpl in *; try rewrite Cx; split; try (intros A g' [= <-]; exact A); intros A; apply A; auto. }
  assert (GEN : forall cells bv, (forall p, In p cells -> sub_leaf f sf p) ->
    (forall x p, canonical x -> sub_leaf f sf p -> part_of1 f p x -> (In p cells /\ match x, bv with Vtx1 v, Some l => exists w, In w l /\ (v == w)%Q | _, _ => True end) <-> (onb = true -> at_end a b f x)) ->
    forall x p, In (x, p) (filter (fun x => ent_marked1 M fl (fst x)) (flat_map (candidates1 M ty bv) cells)) <->
      canonical x /\ kind1 x = ty /\ found1 a b M sf onb x p /\ (forall g, fl = Some g -> labelled1 M x g)).
  { intros cells bv Hc Hb x p. rewrite filter_In, in_flat_map. cbn [fst]. split.
    - intros [[q [Iq C]] L]. apply cand_in in C. destruct C as [-> [K [Cx [Px Bx]]]]. split; auto. split; auto. split; [|apply LB; auto]. split; auto. split; auto. apply (Hb x q); auto.
    - intros [Cx [K [[Lp [Px Ex]] L]]]. destruct (proj2 (Hb x p Cx Lp Px) Ex) as [Ip Bx]. split; [|apply LB; auto]. exists p. split; auto. apply cand_in. auto. }
  unfold get_region_cells1. destruct onb.
  - destruct (bcells1 (P eq_refl)) as [p [n [q [c [E [Ep [Lp [Ap [Eq [Lq Bq]]]]]]]]]]. rewrite E. cbn [bind]. rewrite (bverts1 (P eq_refl)). cbn [bind fst snd].
    eexists. split; [reflexivity|]. apply GEN.
    + intros r [<-|[<-|[]]]; [exists n|exists c]; auto.
    + intros x r Cx Lr Pr. pose proof (end_leaf p n q c r Ep Lp Ap Eq Lq Bq Lr) as EL. destruct x as [v|r']; cbn [at_end part_of1] in *.
      * split.
        -- intros [_ [w [[<-|[<-|[]]] Ew]]] _; [left|right]; rewrite Ew; apply Qred_correct.
        -- intros A. specialize (A eq_refl). split.
           ++ assert (A' : end_of f r a \/ end_of f r b) by (destruct Pr as [m [Em V]]; destruct A as [A|A]; [left|right]; exists m; split; auto; destruct V as [V|V]; [left|right|left|right]; rewrite <- A; auto).
              apply EL in A'. destruct A' as [-> | ->]; simpl; auto.
           ++ destruct A as [A|A]; [exists (Qred a)|exists (Qred b)]; (split; [simpl; auto|]); rewrite Qred_correct; auto.
      * subst r'. split; [intros [I1 _] _; apply EL; destruct I1 as [<-|[<-|[]]]; auto|]. intros A. specialize (A eq_refl). apply EL in A. split; auto. destruct A as [-> | ->]; simpl; auto.
  - cbn [bind fst snd]. eexists. split; [reflexivity|]. apply GEN.
    + intros p. apply leaves1_in.
    + intros x p _ Lp _. split; [intros _ [=]|]. intros _. split; [apply leaves1_in; auto|]. destruct x; auto.
Qed.
End Ends.

(** ** marking *)
Definition mark_ent1 (g : flag) (M : mesh1) (x : ent1) : mesh1 :=
  match x with Vtx1 v => mark_v1 g M v | Cel1 p => mark_c1 g M p end.
Definition ent_eq (x y : ent1) : Prop := match x, y with Vtx1 v, Vtx1 w => (v == w)%Q | Cel1 p, Cel1 q => p = q | _, _ => False end.
Definition pres1 (M : mesh1) (x : ent1) : Prop := match x with Cel1 p => present (m1_cells M) p = true | _ => True end.
Record marked_by1 (g : flag) (X : ent1 -> Prop) (M M' : mesh1) : Prop := {
  n_per : m1_per M' = m1_per M; n_same : same_but (only_flag g) (m1_cells M) (m1_cells M');
  n_hist : exists l, Forall plain l /\ run ikid (m1_cells M) l = Ok (m1_cells M');
  n_lab : forall x k, labelled1 M' x k <-> labelled1 M x k \/ (k = g /\ exists y, X y /\ ent_eq y x) }.
Lemma run_app {A} kid (f : forest A) l l' g : run kid f l = Ok g -> run kid f (l ++ l') = run kid g l'.
Proof.
  unfold run. revert f. induction l as [|o l IH]; intros f E; simpl in *; [congruence|]. destruct (step kid f o) as [h|]; simpl in *; [auto|discriminate].
Qed.
Lemma nb_refl g M : marked_by1 g (fun _ => False) M M.
Proof.
  constructor; auto; [apply same_but_refl|exists []; split; auto; constructor|]. intros x k. split; auto. intros [A|[_ [y [[] _]]]]; auto.
Qed.
Lemma nb_ext g X Y M M' : (forall x, X x <-> Y x) -> marked_by1 g X M M' -> marked_by1 g Y M M'.
Proof. intros E [A B C D]. constructor; auto. intros x k. rewrite D. split; (intros [K|[K [y [Z W]]]]; [auto|right; split; auto; exists y; split; auto; apply E; auto]). Qed.
Lemma nb_trans g X Y M M' M'' : marked_by1 g X M M' -> marked_by1 g Y M' M'' -> marked_by1 g (fun x => X x \/ Y x) M M''.
Proof.
  intros [A B [l [P R]] D] [A' B' [l' [P' R']] D']. constructor; try congruence.
  - eapply same_but_trans; eauto.
  - exists (l ++ l'). split; [apply Forall_app; auto|]. rewrite (run_app _ _ _ _ _ R). auto.
  - intros x k. rewrite D', D. split.
    + intros [[K|[K [y [Z W]]]]|[K [y [Z W]]]]; auto; right; split; auto; exists y; auto.
    + intros [K|[K [y [[Z|Z] W]]]]; auto; [left; right|right]; split; auto; exists y; auto.
Qed.
Lemma same_verts g (f f' : forest itv) p : same_but (only_flag g) f f' -> verts1 f' p = verts1 f p.
Proof.
  intros S1. specialize (S1 p). unfold verts1. destruct (fget f p) as [n|], (fget f' p) as [n'|]; try tauto. destruct S1 as [C _]. unfold core in C. injection C; intros; f_equal; congruence.
Qed.
Lemma nb_pres g X M M' x : marked_by1 g X M M' -> (pres1 M' x <-> pres1 M x).
Proof. intros [_ S1 _ _]. destruct x as [|p]; simpl; [tauto|]. rewrite (same_but_present p S1). tauto. Qed.
Lemma same_mark1 g p (f : forest itv) : same_but (only_flag g) f (fupd p (mark_here g) f).
Proof.
  apply (relabelled_same (only_flag g) (relabelled_mark p g f)). intros q l k N. unfold only_flag in N. destruct (LabelFacts.peq p q); auto.
  rewrite mem_add. assert (E : (k =? g) = false) by (apply Nat.eqb_neq; auto). rewrite E. destruct (mem_flag k l); auto.
Qed.
Lemma nb_one g M x : pres1 M x -> marked_by1 g (eq x) M (mark_ent1 g M x).
Proof.
  intros Px. constructor.
  - destruct x; auto.
  - destruct x; simpl; [apply same_but_refl|apply same_mark1].
  - destruct x as [v|p]; simpl in *; [exists []; split; auto; constructor|]. exists [OMark p g]. split; [constructor; [exact Logic.I|constructor]|]. unfold run. cbn [fold_res step]. unfold at_node.
    unfold present in Px. destruct (fget (m1_cells M) p) as [n|] eqn:E; [|discriminate]. cbn [bind]. f_equal.
    eapply QuadBal.fupd_at; eauto.
  - intros y k. destruct x as [v|p], y as [w|q]; simpl.
    + destruct (Qeq_bool (Qred w) v) eqn:Eq, (Nat.eqb_spec k g) as [->|N]; simpl.
      * split; auto. intros _. right. split; auto. exists (Vtx1 v). split; auto. apply Qeq_bool_iff in Eq. simpl. rewrite <- Eq. apply Qred_correct.
      * split; auto. intros [A|[A _]]; [auto|congruence].
      * split; auto. intros [A|[_ [z [<- A]]]]; auto. simpl in A. exfalso. assert (Qeq_bool (Qred w) v = true) by (apply Qeq_bool_iff; rewrite Qred_correct; symmetry; auto). congruence.
      * split; auto. intros [A|[A _]]; [auto|congruence].
    + split; auto. intros [A|[_ [z [<- A]]]]; [auto|destruct A].
    + split; auto. intros [A|[_ [z [<- A]]]]; [auto|destruct A].
    + destruct (Nat.eq_dec k g) as [->|N].
      * rewrite marked_mark, orb_true_iff, andb_true_iff. rewrite (LabelFacts.peq_true p q). simpl in Px. split.
        -- intros [A|[-> B]]; auto. right. split; auto. exists (Cel1 q). split; auto. reflexivity.
        -- intros [A|[_ [z [<- A]]]]; auto. simpl in A. subst q. auto.
      * rewrite <- (@same_but_marked _ (only_flag g) (m1_cells M) _ q k (same_mark1 g p _)); [|exact N]. split; auto. intros [A|[A _]]; [auto|congruence].
Qed.
Lemma nb_list g (t : ent1 -> bool) : forall l M, (forall x, In x l -> pres1 M x) ->
  marked_by1 g (fun x => In x l /\ t x = true) M (fold_left (fun M x => if t x then mark_ent1 g M x else M) l M).
Proof.
  induction l as [|y l IH]; intros M P; cbn [fold_left].
  - apply (nb_ext g (fun _ => False)); [|apply nb_refl]. intros x. simpl. tauto.
  - destruct (t y) eqn:E.
    + pose proof (nb_one g M y (P y (or_introl eq_refl))) as M1. assert (P' : forall x, In x l -> pres1 (mark_ent1 g M y) x) by (intros x Ix; apply (nb_pres _ _ _ _ _ M1), P; right; auto).
      apply (nb_ext g (fun x => y = x \/ (In x l /\ t x = true))); [|eapply nb_trans; [exact M1|apply IH; auto]]. intros x. simpl. split; [intros [<-|[A B]]; auto|intros [[<-|A] B]; auto].
    + apply (nb_ext g (fun x => In x l /\ t x = true)); [|apply IH; intros x Ix; apply P; right; auto]. intros x. simpl. split; [tauto|]. intros [[<-|A] B]; [congruence|auto].
Qed.
