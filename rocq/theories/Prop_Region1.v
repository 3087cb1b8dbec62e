(** * C73: boundary and regions of one-dimensional meshes *)
From Coq Require Import List Arith Bool Lia QArith Lqa.
From Verif Require Import Tree Forest History SpecForest TreeFacts ForestFacts LabelFacts Geom SpecGeom Mesh1D Fem Dof SpecDof Solver Region RegionDof Region1 SpecRegion1 Region1Facts.
Import ListNotations.
Open Scope nat_scope.

(** The ends of the mesh: the boundary vertices and the bounding box are the ends
    of the interval, the boundary cells the leaves with these ends. *)
Theorem C73_ends a b M sf : line_mesh a b M -> submesh_rooted (m1_cells M) sf ->
  (exists x y, bounding_box1 M = Ok (x, y) /\ x == a /\ y == b)%Q /\
  (m1_per M = false ->
   (exists x y, get_boundary_vertices1 M = Ok (Some (x, y)) /\ x == a /\ y == b)%Q /\
   exists p q, get_boundary_cells1 M sf = Ok (Some (p, q)) /\ sub_leaf (m1_cells M) sf p /\ sub_leaf (m1_cells M) sf q /\
     (forall r, sub_leaf (m1_cells M) sf r -> end_of (m1_cells M) r a <-> r = p) /\
     (forall r, sub_leaf (m1_cells M) sf r -> end_of (m1_cells M) r b <-> r = q)) /\
  (m1_per M = true -> get_boundary_vertices1 M = Ok None /\ get_boundary_cells1 M sf = Ok None).
Proof.
  intros H Rt. split; [|split].
  - exists (Qred a), (Qred b). split; [apply (box1 a b M sf H Rt)|split; apply Qred_correct].
  - intros P. split; [exists (Qred a), (Qred b); split; [apply (bverts1 a b M sf H Rt P)|split; apply Qred_correct]|].
    destruct (bcells1 a b M sf H Rt P) as [p [n [q [c [E [Ep [Lp [Ap [Eq [Lq Bq]]]]]]]]]]. exists p, q. split; auto. split; [exists n; auto|]. split; [exists c; auto|].
    split; intros r [m [Em Lm]]; pose proof (leaf_bounds a b M sf H Rt r m Em Lm) as [B1 [B2 B3]]; split.
    + intros [m' [E' V]]. rewrite Em in E'. injection E' as <-. apply (leaf_left a b M sf H Rt r m p n); auto. destruct V; lra.
    + intros ->. exists n. split; auto. left. symmetry. auto.
    + intros [m' [E' V]]. rewrite Em in E'. injection E' as <-. apply (leaf_right a b M sf H Rt r m q c); auto. destruct V; lra.
    + intros ->. exists c. split; auto. right. symmetry. auto.
  - intros P. unfold get_boundary_vertices1, get_boundary_cells1. rewrite P. auto.
Qed.
Print Assumptions C73_ends.

(** get_region returns exactly the vertices or cells of the submesh (at the ends of
    the domain) with the label, with exactly the cells of the submesh around them. *)
Theorem C73_get a b M sf fl ty on_boundary : line_mesh a b M -> submesh_rooted (m1_cells M) sf -> (on_boundary = true -> m1_per M = false) ->
  exists l, get_region_cells1 fl ty on_boundary sf M = Ok l /\ get_region1 fl ty on_boundary sf M = Ok (map fst l) /\
    forall x p, In (x, p) l <-> canonical x /\ kind1 x = ty /\ found1 a b M sf on_boundary x p /\ (forall g, fl = Some g -> labelled1 M x g).
Proof.
  intros H Rt P. destruct (get_spec a b M sf H Rt fl ty on_boundary P) as [l [E I]]. exists l. split; auto. split; auto. unfold get_region1. rewrite E. reflexivity.
Qed.
Print Assumptions C73_get.

Lemma nb_fold g (X : path -> ent1 -> Prop) step M0 : forall ps, (forall M' p, In p ps -> same_but (only_flag g) (m1_cells M0) (m1_cells M') -> marked_by1 g (X p) M' (step M' p)) ->
  forall M', same_but (only_flag g) (m1_cells M0) (m1_cells M') -> marked_by1 g (fun x => exists p, In p ps /\ X p x) M' (fold_left step ps M').
Proof.
  induction ps as [|p ps IH]; intros St M' S; cbn [fold_left].
  - apply (nb_ext g (fun _ => False)); [|apply nb_refl]. intros x. split; [intros []|intros [p [[] _]]].
  - pose proof (St M' p (or_introl eq_refl) S) as M1. apply (nb_ext g (fun x => X p x \/ exists q, In q ps /\ X q x)).
    + intros x. split; [intros [A|[q [A B]]]; [exists p; split; auto; left; auto|exists q; split; auto; right; auto]|intros [q [[<-|A] B]]; eauto].
    + eapply nb_trans; [exact M1|]. apply IH; [intros M2 q Iq S2; apply St; auto; right; auto|]. eapply same_but_trans; [exact S|apply (n_same _ _ _ _ M1)].
Qed.
Lemma mark_verts_by g f vs M : marked_by1 g (fun x => exists v, x = Vtx1 v /\ In v vs /\ f v = true) M (mark_verts1 g f vs M).
Proof.
  unfold mark_verts1. pose proof (nb_list g (fun x => match x with Vtx1 v => f v | _ => false end) (map Vtx1 vs) M) as N.
  assert (E : forall vs M, fold_left (fun M x => if match x with Vtx1 v => f v | Cel1 _ => false end then mark_ent1 g M x else M) (map Vtx1 vs) M = fold_left (fun M v => if f v then mark_v1 g M v else M) vs M).
  { clear. induction vs as [|v vs IH]; intros M; cbn [map fold_left]; auto. }
  rewrite E in N. eapply nb_ext; [|apply N]; cbv beta.
  - intros x. rewrite in_map_iff. split; [intros [[v [<- A]] B]; eauto|intros [v [-> [A B]]]; eauto].
  - intros x Ix. apply in_map_iff in Ix. destruct Ix as [v [<- _]]. exact Logic.I.
Qed.
Lemma mark_cell_by g f strict M p : present (m1_cells M) p = true ->
  marked_by1 g (fun x => x = Cel1 p /\ inside1 f strict (verts1 (m1_cells M) p) = true) M (mark_cell1 g f strict M p).
Proof.
  intros Pp. unfold mark_cell1. destruct (inside1 f strict (verts1 (m1_cells M) p)).
  - eapply nb_ext; [|apply (nb_one g M (Cel1 p) Pp)]. intros x. split; [intros <-; auto|intros [-> _]; auto].
  - eapply nb_ext; [|apply nb_refl]. intros x. split; [intros []|intros [_ [=]]].
Qed.
Lemma inside_iff r strict (f : forest itv) p : present f p = true -> inside1 r strict (verts1 f p) = true <-> in_region1 r strict f (Cel1 p).
Proof.
  intros Pp. unfold inside1, in_region1. destruct strict.
  - rewrite forallb_forall. split.
    + intros A v Ev. apply A, verts1_in. split; [apply qred_qred|]. destruct Ev as [n [En V]]. exists n. split; auto. rewrite Qred_correct. auto.
    + intros A v Iv. apply verts1_in in Iv. destruct Iv as [C Ev]. rewrite <- C. auto.
  - rewrite existsb_exists. split.
    + intros [v [Iv A]]. apply verts1_in in Iv. destruct Iv as [C Ev]. exists v. split; auto. rewrite C. auto.
    + intros [v [Ev A]]. exists (Qred v). split; auto. apply verts1_in. split; [apply qred_qred|]. destruct Ev as [n [En V]]. exists n. split; auto. rewrite Qred_correct. auto.
Qed.
Lemma leaf_present1 {A} (f : forest A) sf p : sub_leaf f sf p -> present f p = true.
Proof. intros [n [E _]]. unfold present. rewrite E. auto. Qed.

Lemma end_eq (f : forest itv) p v w : (v == w)%Q -> end_of f p v -> end_of f p w.
Proof. intros E [n [En V]]. exists n. split; auto. rewrite <- E. auto. Qed.
Lemma line_marked a b g X M M' : line_mesh a b M -> marked_by1 g X M M' -> line_mesh a b M'.
Proof.
  intros [Ne [T [l [P R]]]] [_ S [l' [P' R']] _]. split; [|split].
  - intro E. apply Ne. pose proof (same_but_length S) as L. rewrite E in L. destruct (m1_cells M); [auto|discriminate].
  - assert (E : map n_data (m1_cells M') = map n_data (m1_cells M)); [|rewrite E; auto]. apply nth_ext with (d := (0, 0)%Q) (d' := (0, 0)%Q).
    + rewrite !map_length. symmetry. apply (same_but_length S).
    + intros i Li. rewrite map_length in Li. pose proof (S [i]) as Si. simpl in Si.
      assert (L2 : i < length (m1_cells M)) by (rewrite (same_but_length S); auto).
      destruct (nth_error (m1_cells M') i) as [n'|] eqn:E'; [|apply nth_error_None in E'; lia]. destruct (nth_error (m1_cells M) i) as [n|] eqn:E; [|apply nth_error_None in E; lia].
      destruct Si as [C _]. rewrite (nth_error_nth _ _ _ (map_nth_error n_data _ _ E')), (nth_error_nth _ _ _ (map_nth_error n_data _ _ E)). unfold core in C. congruence.
  - exists (l ++ l'). split; [apply Forall_app; auto|]. rewrite (run_app _ _ _ _ _ R). auto.
Qed.
Lemma mark_spec1 a b M sf g r ty strict onb : line_mesh a b M -> submesh_rooted (m1_cells M) sf -> (onb = true -> m1_per M = false) ->
  exists M' X, mark_region1 g r ty strict onb sf M = Ok M' /\ marked_by1 g X M M' /\
    forall x, (exists y, X y /\ ent_eq y x) <-> (kind1 x = ty /\ (exists p, found1 a b M sf onb x p) /\ in_region1 r strict (m1_cells M) x).
Proof.
  intros H Rt P. set (f := m1_cells M) in *.
  assert (RD : forall v w : Q, (v == w)%Q -> Qred v = Qred w) by (intros; apply Qred_complete; auto).
  assert (Triv : ty <> EVertex -> ty <> ECell -> exists M' X, Ok M = Ok M' /\ marked_by1 g X M M' /\
    forall x, (exists y, X y /\ ent_eq y x) <-> (kind1 x = ty /\ (exists p, found1 a b M sf onb x p) /\ in_region1 r strict f x)).
  { intros N1 N2. exists M, (fun _ => False). split; auto. split; [apply nb_refl|]. intros x. split; [intros [y [[] _]]|]. destruct x; intros [K _]; simpl in K; congruence. }
  assert (Idle : forall ps M1, fold_left (fun (M : mesh1) (_ : path) => M) ps M1 = M1) by (clear; induction ps; auto).
  unfold mark_region1. destruct onb.
  - specialize (P eq_refl). destruct ty; try (apply Triv; discriminate).
    + rewrite (bverts1 a b M sf H Rt P). cbn [bind]. eexists. eexists. split; [reflexivity|]. split; [apply mark_verts_by|]. intros x. split.
      * intros [y [[v [-> [Iv Rv]]] Ey]]. destruct x as [w|]; [|destruct Ey]. simpl in Ey. split; auto.
        destruct (bcells1 a b M sf H Rt P) as [p [n [q [c [_ [Ep [Lp [Ap [Eq [Lq Bq]]]]]]]]]].
        assert (Cv : Qred v = v) by (destruct Iv as [<-|[<-|[]]]; apply qred_qred). split; [|simpl; rewrite <- (RD v w Ey), Cv; auto].
        destruct Iv as [<-|[<-|[]]]; rewrite Qred_correct in Ey; [exists p|exists q]; (split; [eexists; eauto|]); (split; [|intros _; cbn; auto with qarith]).
        -- exists n. split; auto. left. lra.
        -- exists c. split; auto. right. lra.
      * destruct x as [w|]; [|intros [[=] _]]. intros [_ [[p [Lp [Px Ae]]] Rw]]. specialize (Ae eq_refl). simpl in Ae, Rw. exists (Vtx1 (Qred w)). split; [|apply Qred_correct].
        exists (Qred w). split; auto. split; auto. destruct Ae as [A|A]; rewrite (RD _ _ A); simpl; auto.
    + destruct (bcells1 a b M sf H Rt P) as [p [n [q [c [E [Ep [Lp [Ap [Eq [Lq Bq]]]]]]]]]]. rewrite E. cbn [bind].
      eexists. exists (fun x => exists r0, In r0 [p; q] /\ x = Cel1 r0 /\ inside1 r strict (verts1 f r0) = true). split; [reflexivity|].
      assert (Lf : forall r0, In r0 [p; q] -> sub_leaf f sf r0) by (intros r0 [<-|[<-|[]]]; [exists n|exists c]; auto). split.
      * apply (nb_fold g (fun r0 x => x = Cel1 r0 /\ inside1 r strict (verts1 f r0) = true) (mark_cell1 g r strict) M); [|apply same_but_refl].
        intros M' r0 Ir S. rewrite <- (same_verts g f (m1_cells M') r0 S). apply mark_cell_by. rewrite <- (same_but_present r0 S). apply (leaf_present1 _ sf). apply Lf; auto.
      * intros x. split.
        -- intros [y [[r0 [Ir [-> In0]]] Ey]]. destruct x as [|r1]; [destruct Ey|]. simpl in Ey. subst r1. split; auto. split.
           ++ exists r0. split; [apply Lf; auto|]. split; [reflexivity|]. intros _. simpl. apply (end_leaf a b M sf H Rt p n q c r0); auto. destruct Ir as [<-|[<-|[]]]; auto.
           ++ apply inside_iff; auto. apply (leaf_present1 _ sf). apply Lf; auto.
        -- destruct x as [|r0]; [intros [[=] _]|]. intros [_ [[r1 [Lr [Pr Ae]]] Rr]]. simpl in Pr. subst r1. specialize (Ae eq_refl). simpl in Ae.
           apply (end_leaf a b M sf H Rt p n q c r0) in Ae; auto. exists (Cel1 r0). split; [|reflexivity]. exists r0. split; [destruct Ae as [-> | ->]; simpl; auto|]. split; auto. apply inside_iff; auto. apply (leaf_present1 _ sf). auto.
  - set (ps := map fst (fget_leaves (m1_cells M) None sf BreadthFirst)) in *. destruct ty; try (rewrite Idle; apply Triv; discriminate).
    + eexists. exists (fun x => exists p, In p ps /\ exists v, x = Vtx1 v /\ In v (verts1 f p) /\ r v = true). split; [reflexivity|]. split.
      * apply (nb_fold g (fun p x => exists v, x = Vtx1 v /\ In v (verts1 f p) /\ r v = true) _ M); [|apply same_but_refl].
        intros M' p Ip S. rewrite <- (same_verts g f (m1_cells M') p S). apply mark_verts_by.
      * intros x. split.
        -- intros [y [[p [Ip [v [-> [Iv Rv]]]]] Ey]]. destruct x as [w|]; [|destruct Ey]. simpl in Ey. split; auto. apply leaves1_in in Ip. apply verts1_in in Iv. destruct Iv as [Cv Ev].
           split; [exists p; split; auto; split; [simpl; eapply end_eq; eauto|intros [=]]|]. simpl. rewrite <- (RD v w Ey), Cv. auto.
        -- destruct x as [w|]; [|intros [[=] _]]. intros [_ [[p [Lp [Px _]]] Rw]]. simpl in Px, Rw. exists (Vtx1 (Qred w)). split; [|apply Qred_correct]. exists p. split; [apply leaves1_in; auto|].
           exists (Qred w). split; auto. split; auto. apply verts1_in. split; [apply qred_qred|]. eapply end_eq; [|exact Px]. symmetry. apply Qred_correct.
    + eexists. exists (fun x => exists p, In p ps /\ x = Cel1 p /\ inside1 r strict (verts1 f p) = true). split; [reflexivity|]. split.
      * apply (nb_fold g (fun p x => x = Cel1 p /\ inside1 r strict (verts1 f p) = true) (mark_cell1 g r strict) M); [|apply same_but_refl].
        intros M' p Ip S. rewrite <- (same_verts g f (m1_cells M') p S). apply mark_cell_by. rewrite <- (same_but_present p S). apply (leaf_present1 _ sf). apply leaves1_in. auto.
      * intros x. split.
        -- intros [y [[p [Ip [-> In0]]] Ey]]. destruct x as [|r1]; [destruct Ey|]. simpl in Ey. subst r1. apply leaves1_in in Ip. split; auto. split; [exists p; split; auto; split; [reflexivity|intros [=]]|].
           apply inside_iff; auto. apply (leaf_present1 _ sf). auto.
        -- destruct x as [|r0]; [intros [[=] _]|]. intros [_ [[r1 [Lr [Pr _]]] Rr]]. simpl in Pr. subst r1. exists (Cel1 r0). split; [|reflexivity]. exists r0. split; [apply leaves1_in; auto|]. split; auto. apply inside_iff; auto. apply (leaf_present1 _ sf). auto.
Qed.
(** mark_region gives the label to exactly the vertices or cells in the region, of
    the submesh (at the ends of the domain), and changes nothing else. *)
Theorem C73_mark a b M sf g r ty strict on_boundary : line_mesh a b M -> submesh_rooted (m1_cells M) sf -> (on_boundary = true -> m1_per M = false) ->
  exists M', mark_region1 g r ty strict on_boundary sf M = Ok M' /\ line_mesh a b M' /\ m1_per M' = m1_per M /\
    same_but (only_flag g) (m1_cells M) (m1_cells M') /\
    (forall x k, labelled1 M' x k <-> labelled1 M x k \/
       (k = g /\ kind1 x = ty /\ (exists p, found1 a b M sf on_boundary x p) /\ in_region1 r strict (m1_cells M) x)).
Proof.
  intros H Rt P. destruct (mark_spec1 a b M sf g r ty strict on_boundary H Rt P) as [M' [X [E [N I]]]]. exists M'. split; auto. split; [eapply line_marked; eauto|].
  destruct N as [A B _ D]. split; auto. split; auto. intros x k. rewrite D, I. tauto.
Qed.
Print Assumptions C73_mark.

(** Periodic meshes have no boundary: regions on the boundary raise TypeError. *)
Theorem C73_periodic M sf fl g r ty strict : m1_per M = true ->
  get_region_cells1 fl ty true sf M = Err TypeError /\ (ty = EVertex \/ ty = ECell -> mark_region1 g r ty strict true sf M = Err TypeError).
Proof.
  intros P. unfold get_region_cells1, mark_region1, get_boundary_cells1, get_boundary_vertices1. rewrite P. split; auto. intros [-> | ->]; auto.
Qed.
Print Assumptions C73_periodic.

(** changing only labels that the submesh does not look at *)
Section EXT.
Variables (g : flag) (f f' : forest itv) (sf : option flag).
Hypothesis S : same_but (only_flag g) f f'.
Hypothesis E4 : forall s p, sf = Some s -> marked_at f' p s = marked_at f p s.
Lemma ins1_iff (h : forest itv) p : in_sub h sf p <-> present h p = true /\ forall s, sf = Some s -> marked_at h p s = true.
Proof.
  unfold in_sub, present, marked_at. destruct (fget h p) as [n|]; [|split; [intros [n [[=] _]]|intros [[=] _]]]. split.
  - intros [n' [[= <-] F]]. split; auto. intros s ->. exact F.
  - intros [_ A]. exists n. split; auto. destruct sf as [s|]; [exact (A s eq_refl)|exact Logic.I].
Qed.
Lemma leaf1_set (h : forest itv) p : p <> [] -> (sub_leaf h sf p <-> in_sub h sf p /\ forall i, ~ in_sub h sf (p ++ [i])).
Proof.
  intros Np. unfold sub_leaf, is_leaf_of. split.
  - intros [n [F [H1 H2]]]. split; [exists n; auto|]. intros i [k [E H]]. rewrite fget_snoc, F in E by auto.
    destruct (nth_error (n_slots n) i) as [[o|]|] eqn:Ei; try discriminate. injection E as <-. apply (H2 i o Ei H).
  - intros [[n [F H1]] H2]. exists n. split; auto. split; auto. intros i k E H. apply (H2 i). exists k. rewrite fget_snoc, F, E by auto. auto.
Qed.
Lemma ext1_ins p : in_sub f' sf p <-> in_sub f sf p.
Proof. rewrite !ins1_iff, (same_but_present p S). split; intros [A B]; split; auto; intros s Es; [rewrite <- E4|rewrite E4]; auto. Qed.
Lemma ext1_leaf p : sub_leaf f' sf p <-> sub_leaf f sf p.
Proof.
  destruct p as [|i p]; [split; intros [n [[=] _]]|]. rewrite !leaf1_set by discriminate. rewrite ext1_ins. split; intros [A B]; split; auto; intros j; [rewrite <- ext1_ins|rewrite ext1_ins]; auto.
Qed.
Lemma ext1_rooted : submesh_rooted f sf -> submesh_rooted f' sf.
Proof.
  destruct sf as [s|]; simpl; auto. intros [A [B C]]. split; [|split].
  - intros i. rewrite <- (same_but_present [i] S), E4; auto.
  - intros a i r Na. rewrite !E4 by auto. eauto.
  - intros a i j Na. rewrite <- (same_but_present (a ++ [j]) S), !E4 by auto. eauto.
Qed.
Lemma ext1_end p v : end_of f' p v <-> end_of f p v.
Proof. pose proof (S p) as C. unfold end_of. destruct (fget f p) as [n|], (fget f' p) as [n'|]; try tauto. destruct C as [C _]. assert (E : n_data n = n_data n') by (unfold core in C; congruence).
  split; intros [k [[= <-] V]]; eexists; (split; [reflexivity|]); [rewrite E|rewrite <- E]; auto. Qed.
End EXT.
Lemma ext1_found a b g M M' sf onb x p : same_but (only_flag g) (m1_cells M) (m1_cells M') -> (forall s q, sf = Some s -> marked_at (m1_cells M') q s = marked_at (m1_cells M) q s) ->
  (found1 a b M' sf onb x p <-> found1 a b M sf onb x p).
Proof.
  intros S E4. unfold found1. rewrite (ext1_leaf g (m1_cells M) (m1_cells M') sf S E4 p). unfold part_of1, at_end. destruct x as [v|q].
  - rewrite (ext1_end g (m1_cells M) (m1_cells M') S p v). tauto.
  - rewrite !(ext1_end g (m1_cells M) (m1_cells M') S q). tauto.
Qed.
(** marking does not change the submesh, even if its own label is used *)
Lemma mark_keeps a b M sf g r ty strict onb M' : (forall x k, labelled1 M' x k <-> labelled1 M x k \/
       (k = g /\ kind1 x = ty /\ (exists p, found1 a b M sf onb x p) /\ in_region1 r strict (m1_cells M) x)) ->
  forall s p, sf = Some s -> marked_at (m1_cells M') p s = marked_at (m1_cells M) p s.
Proof.
  intros L s p Es. apply eq_true_iff_eq. rewrite (L (Cel1 p) s : marked_at (m1_cells M') p s = true <-> _). split; [|auto].
  intros [A|[-> [_ [[q [Lq [Pq _]]] _]]]]; auto. simpl in Pq. subst q. destruct Lq as [n [En [Fn _]]]. rewrite Es in Fn. unfold marked_at. rewrite En. exact Fn.
Qed.
(** The entities that were marked are found again. *)
Theorem C73_mark_get a b M sf g r ty strict on_boundary : line_mesh a b M -> submesh_rooted (m1_cells M) sf -> (on_boundary = true -> m1_per M = false) ->
  exists M' out, mark_region1 g r ty strict on_boundary sf M = Ok M' /\ get_region1 (Some g) ty on_boundary sf M' = Ok out /\
    (forall x, In x out <-> canonical x /\ kind1 x = ty /\ (exists p, found1 a b M sf on_boundary x p) /\ (in_region1 r strict (m1_cells M) x \/ labelled1 M x g)) /\
    (forall p, sub_leaf (m1_cells M') sf p <-> sub_leaf (m1_cells M) sf p).
Proof.
  intros H Rt P. destruct (C73_mark a b M sf g r ty strict on_boundary H Rt P) as [M' [E [H' [P' [S L]]]]]. pose proof (mark_keeps a b M sf g r ty strict on_boundary M' L) as E4.
  destruct (C73_get a b M' sf (Some g) ty on_boundary H' (ext1_rooted g _ _ sf S E4 Rt) (fun E => eq_trans P' (P E))) as [l [_ [G I]]].
  exists M', (map fst l). split; auto. split; auto. split; [|apply (ext1_leaf g); auto]. intros x. rewrite in_map_iff. split.
  - intros [[y p] [Ey Ip]]. cbn [fst] in Ey. subst y. apply I in Ip. destruct Ip as [Cx [Kx [F Lx]]]. split; auto. split; auto. split; [exists p; apply (ext1_found a b g M M'); auto|].
    specialize (Lx g eq_refl). apply L in Lx. destruct Lx as [A|[_ [_ [_ A]]]]; auto.
  - intros [Cx [Kx [[p F] A]]]. exists (x, p). split; auto. apply I. split; auto. split; auto. split; [apply (ext1_found a b g M M'); auto|].
    intros g' [= <-]. apply L. destruct A as [A|A]; [right; split; auto; split; auto; split; eauto|auto].
Qed.
Print Assumptions C73_mark_get.

(** A case: the mesh 0, 1/4, 1/2, 1; the cells [0,1/2], [1/2,1] form the submesh 5 *)
Definition ex_line : mesh1 :=
  mkM1 (match run ikid [] [OAddTree 2 (0, 1 # 2)%Q; OAddTree 2 (1 # 2, 1)%Q; OMark [0] 5; OMark [1] 5; OSplit [0]] with Ok f => f | Err _ => [] end) false (fun _ _ => false).
Lemma ex_line_mesh : line_mesh 0 1 ex_line.
Proof.
  split; [discriminate|]. split; [vm_compute; repeat split; reflexivity|]. exists [OAddTree 2 (0, 1 # 2)%Q; OAddTree 2 (1 # 2, 1)%Q; OMark [0] 5; OMark [1] 5; OSplit [0]]. split; [repeat constructor|reflexivity].
Qed.
Example C73_case : line_mesh 0 1 ex_line /\
  get_boundary_cells1 ex_line None = Ok (Some ([0; 0], [1])) /\ get_boundary_cells1 ex_line (Some 5) = Ok (Some ([0], [1])) /\
  get_region_cells1 None EVertex true None ex_line = Ok [(Vtx1 0, [0; 0]); (Vtx1 1, [1])] /\
  bind (mark_region1 7 (fun x => Qle_bool x (1 # 2)) ECell true false None ex_line) (get_region1 (Some 7) ECell false None) = Ok [Cel1 [0; 0]; Cel1 [0; 1]] /\
  bind (mark_region1 7 (fun x => Qle_bool x (1 # 2)) ECell false false (Some 5) ex_line) (get_region1 (Some 7) ECell false (Some 5)) = Ok [Cel1 [0]; Cel1 [1]] /\
  bind (mark_region1 7 (fun x => Qle_bool (1 # 4) x) EVertex true false (Some 5) ex_line) (get_region1 (Some 7) EVertex false None) = Ok [Vtx1 (1 # 2); Vtx1 1; Vtx1 (1 # 2)].
Proof. split; [exact ex_line_mesh|]. repeat split; vm_compute; reflexivity. Qed.
