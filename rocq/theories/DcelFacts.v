(** * Facts about the doubly connected edge list *)
From Coq Require Import List Arith Bool Lia.
From Verif Require Import Tree Geom Dcel SpecDcel.
Import ListNotations.
Open Scope nat_scope.

Lemma path_edges_length : forall l, length (path_edges l) = length l - 1.
Proof. induction l as [|a [|b r] IH]; simpl in *; auto. rewrite IH; lia. Qed.
Lemma path_edges_nth : forall l i d, S i < length l ->
  nth_error (path_edges l) i = Some (nth i l d, nth (S i) l d).
Proof.
  induction l as [|a r IH]; intros i d L; [simpl in L; lia|].
  destruct r as [|b r]; [simpl in L; lia|]. destruct i; [reflexivity|].
  change (path_edges (a :: b :: r)) with ((a, b) :: path_edges (b :: r)).
  change (nth_error (path_edges (b :: r)) i = Some (nth i (b :: r) d, nth (S i) (b :: r) d)).
  apply IH. simpl in *; lia.
Qed.
Lemma polygon_edges_length fc : length (polygon_edges fc) = length fc.
Proof. destruct fc; auto. unfold polygon_edges. rewrite path_edges_length, app_length; simpl; lia. Qed.
Lemma polygon_edges_nth fc i d : i < length fc ->
  nth_error (polygon_edges fc) i = Some (nth i fc d, nth ((i + 1) mod length fc) fc d).
Proof.
  destruct fc as [|a r]; [simpl; lia|]. intros L. unfold polygon_edges.
  rewrite (path_edges_nth _ i d); [|rewrite app_length; simpl in *; lia].
  rewrite app_nth1 by auto. do 2 f_equal.
  destruct (Nat.eq_dec (S i) (length (a :: r))) as [E|N].
  - rewrite app_nth2 by lia. replace (i + 1) with (length (a :: r)) by lia. rewrite Nat.mod_same by (simpl; lia).
    rewrite E, Nat.sub_diag. reflexivity.
  - rewrite app_nth1 by lia. rewrite Nat.mod_small by lia. f_equal; lia.
Qed.

Lemma nth_error_seq : forall n s i, i < n -> nth_error (seq s n) i = Some (s + i).
Proof. induction n; intros s [|i] L; try lia; simpl. f_equal; lia. rewrite IHn by lia. f_equal; lia. Qed.

Lemma list_ext {X} : forall (a b : list X), (forall i, nth_error a i = nth_error b i) -> a = b.
Proof.
  induction a as [|x a IH]; intros [|y b] H; auto.
  - specialize (H 0); discriminate.
  - specialize (H 0); discriminate.
  - f_equal; [specialize (H 0); simpl in H; congruence|]. apply IH. intros i. apply (H (S i)).
Qed.

Lemma face_hes_length c f fc : length (face_hes c f fc) = length fc.
Proof. unfold face_hes. rewrite map_length, seq_length. reflexivity. Qed.
Lemma face_hes_nth c f fc i : i < length fc ->
  nth_error (face_hes c f fc) i =
  Some (mkH (nth i fc 0, nth ((i + 1) mod length fc) fc 0)
            (Some (c + (i + length fc - 1) mod length fc))
            (Some (c + (i + 1) mod length fc)) (Some f)).
Proof.
  intros L. unfold face_hes. rewrite nth_error_map, nth_error_seq by auto. simpl.
  rewrite (Nat.mod_small i) by auto. reflexivity.
Qed.
Lemma face_hes_conn c f fc : map h_conn (face_hes c f fc) = polygon_edges fc.
Proof.
  apply list_ext. intros i. rewrite nth_error_map.
  destruct (Nat.lt_ge_cases i (length fc)) as [L|L].
  - rewrite face_hes_nth by auto. rewrite (polygon_edges_nth _ _ 0) by auto. reflexivity.
  - rewrite (proj2 (nth_error_None _ _)) by (rewrite face_hes_length; lia).
    rewrite (proj2 (nth_error_None _ _)) by (rewrite polygon_edges_length; lia). reflexivity.
Qed.
Lemma all_hes_conn : forall faces c f, map h_conn (all_hes c f faces) = mesh_edges faces.
Proof.
  induction faces as [|fc r IH]; intros c f; [reflexivity|]. simpl. rewrite map_app, face_hes_conn, IH. reflexivity.
Qed.

(** number of the first half-edge of face number [f] *)
Definition offset (faces : list (list nat)) (f : nat) : nat :=
  list_sum (map (@length nat) (firstn f faces)).
Lemma offset_S faces f fc : nth_error faces f = Some fc -> offset faces (S f) = offset faces f + length fc.
Proof.
  unfold offset. revert f. induction faces as [|x r IH]; intros [|f] E; simpl in *; try discriminate.
  - injection E as ->. simpl. lia.
  - rewrite (IH f E). lia.
Qed.
(** the half-edge of side [i] of face number [f] *)
Definition side_he (faces : list (list nat)) (f i : nat) : nat := offset faces f + i.

Lemma all_hes_nth : forall faces c g f fc i, nth_error faces f = Some fc -> i < length fc ->
  nth_error (all_hes c g faces) (offset faces f + i) =
  Some (mkH (nth i fc 0, nth ((i + 1) mod length fc) fc 0)
            (Some (c + offset faces f + (i + length fc - 1) mod length fc))
            (Some (c + offset faces f + (i + 1) mod length fc)) (Some (g + f))).
Proof.
  induction faces as [|x r IH]; intros c g [|f] fc i E L; simpl in E; try discriminate.
  - injection E as ->. unfold offset; simpl. rewrite nth_error_app1 by (rewrite face_hes_length; auto).
    rewrite face_hes_nth by auto. rewrite !Nat.add_0_r. reflexivity.
  - replace (offset (x :: r) (S f)) with (length x + offset r f) by reflexivity.
    change (all_hes c g (x :: r)) with (face_hes c g x ++ all_hes (c + length x) (S g) r).
    rewrite nth_error_app2 by (rewrite face_hes_length; lia). rewrite face_hes_length.
    replace (length x + offset r f + i - length x) with (offset r f + i) by lia.
    rewrite (IH (c + length x) (S g) f fc i E L). rewrite !Nat.add_assoc. replace (S g + f) with (g + S f) by lia. reflexivity.
Qed.
Lemma all_hes_length faces c g : length (all_hes c g faces) = length (mesh_edges faces).
Proof. rewrite <- (all_hes_conn faces c g), map_length. reflexivity. Qed.
Lemma mesh_edges_length : forall faces, length (mesh_edges faces) = list_sum (map (@length nat) faces).
Proof. induction faces; simpl; auto. rewrite app_length, polygon_edges_length, IHfaces. reflexivity. Qed.
Lemma he_side : forall faces h, h < length (mesh_edges faces) ->
  exists f fc i, nth_error faces f = Some fc /\ i < length fc /\ h = side_he faces f i.
Proof.
  induction faces as [|x r IH]; intros h L; [simpl in L; lia|].
  rewrite mesh_edges_length in L; simpl in L.
  destruct (Nat.lt_ge_cases h (length x)) as [Lx|Lx].
  - exists 0, x, h. repeat split; auto.
  - destruct (IH (h - length x)) as [f [fc [i [E [Li Eh]]]]]; [rewrite mesh_edges_length; lia|].
    exists (S f), fc, i. repeat split; auto. unfold side_he in *.
    replace (offset (x :: r) (S f)) with (length x + offset r f) by reflexivity. lia.
Qed.
Lemma side_lt faces f fc i : nth_error faces f = Some fc -> i < length fc -> side_he faces f i < length (mesh_edges faces).
Proof.
  intros E L. rewrite <- (all_hes_length faces 0 0). apply nth_error_Some. unfold side_he.
  rewrite (all_hes_nth _ 0 0 _ _ _ E L). discriminate.
Qed.
Lemma offset_mono faces f g : f <= g -> offset faces f <= offset faces g.
Proof.
  unfold offset. revert f g. induction faces as [|x r IH]; intros f g L.
  - rewrite !firstn_nil. auto.
  - destruct f, g; simpl; try lia. apply le_n_S in L || idtac. specialize (IH f g). lia.
Qed.
Lemma side_inj faces f g fc gc i j :
  nth_error faces f = Some fc -> nth_error faces g = Some gc -> i < length fc -> j < length gc ->
  side_he faces f i = side_he faces g j -> f = g /\ i = j.
Proof.
  unfold side_he. intros Ef Eg Li Lj E.
  pose proof (offset_S _ _ _ Ef). pose proof (offset_S _ _ _ Eg).
  destruct (Nat.lt_trichotomy f g) as [T|[T|T]].
  - pose proof (offset_mono faces (S f) g T). lia.
  - subst g. split; auto. lia.
  - pose proof (offset_mono faces (S g) f T). lia.
Qed.

(** ** Twins *)
Lemma in_rev_rows hs h r : In r (rev_rows hs h) <->
  exists t, nth_error hs r = Some t /\ h_conn t = opposite (h_conn h).
Proof.
  unfold rev_rows. rewrite filter_In, in_seq. split.
  - intros [_ H]. destruct (nth_error hs r) as [t|]; [|discriminate]. exists t; split; auto.
    apply andb_true_iff in H. destruct H as [H1 H2]. apply Nat.eqb_eq in H1, H2.
    unfold opposite. rewrite <- H1, <- H2. apply surjective_pairing.
  - intros [t [E C]]. split; [split; [lia|]; apply nth_error_Some; congruence|].
    rewrite E, C. unfold opposite; simpl. rewrite !Nat.eqb_refl. reflexivity.
Qed.
Lemma NoDup_rev_rows hs h : NoDup (rev_rows hs h).
Proof. apply NoDup_filter, seq_NoDup. Qed.
Lemma conn_inj hs i j a b : NoDup (map h_conn hs) -> nth_error hs i = Some a -> nth_error hs j = Some b ->
  h_conn a = h_conn b -> i = j.
Proof.
  intros N Ei Ej E. rewrite NoDup_nth_error in N. apply N.
  - rewrite map_length. apply nth_error_Some. congruence.
  - rewrite !nth_error_map, Ei, Ej. simpl. congruence.
Qed.
Lemma twins_spec hs i h : NoDup (map h_conn hs) -> nth_error hs i = Some h ->
  exists o, nth_error (twins hs) i = Some o /\
  (forall r, o = Some r <-> exists t, nth_error hs r = Some t /\ h_conn t = opposite (h_conn h)).
Proof.
  intros N E. unfold twins. rewrite nth_error_map, E. simpl. eexists; split; [reflexivity|].
  intros r. rewrite <- in_rev_rows.
  assert (U : forall a b, In a (rev_rows hs h) -> In b (rev_rows hs h) -> a = b).
  { intros a b Ia Ib. apply in_rev_rows in Ia, Ib. destruct Ia as [t [Et Ct]], Ib as [u [Eu Cu]].
    eapply conn_inj; eauto. congruence. }
  pose proof (NoDup_rev_rows hs h) as D.
  destruct (rev_rows hs h) as [|a [|b l]].
  - split; [discriminate|intros []].
  - split; [intros [= ->]; left; auto|intros [->|[]]; auto].
  - exfalso. assert (a = b) by (apply U; simpl; auto). subst. inversion D; subst. apply H1; left; auto.
Qed.
Lemma opposite_invol e : opposite (opposite e) = e.
Proof. destruct e; reflexivity. Qed.

(** ** The other arrays *)
Lemma all_face_he_ok : forall faces c l, all_face_he c faces = Ok l ->
  length l = length faces /\ forall f, f < length faces -> nth_error l f = Some (c + offset faces f).
Proof.
  induction faces as [|x r IH]; intros c l E.
  - injection E as <-. split; auto. simpl; lia.
  - destruct x as [|v x]; [discriminate|].
    change (bind (all_face_he (c + length (v :: x)) r) (fun l0 => Ok (c :: l0)) = Ok l) in E.
    destruct (all_face_he (c + length (v :: x)) r) as [l0|] eqn:E0; [|discriminate]. injection E as <-.
    destruct (IH _ _ E0) as [A B]. split; [simpl; congruence|]. intros [|f] L.
    + simpl. unfold offset; simpl. f_equal; lia.
    + simpl in L. simpl nth_error. rewrite B by lia.
      replace (offset ((v :: x) :: r) (S f)) with (length (v :: x) + offset r f) by reflexivity. f_equal; lia.
Qed.
Lemma all_face_he_total : forall faces c, Forall (fun fc => fc <> []) faces -> exists l, all_face_he c faces = Ok l.
Proof.
  induction faces as [|x r IH]; intros c F; [eexists; reflexivity|].
  inversion F; subst. destruct x as [|v x]; [congruence|]. destruct (IH (c + length (v :: x)) H2) as [l E].
  exists (c :: l). change (bind (all_face_he (c + length (v :: x)) r) (fun l0 => Ok (c :: l0)) = Ok (c :: l)). rewrite E. reflexivity.
Qed.
Lemma set_nth_length {X} : forall (l : list X) i x, length (set_nth i x l) = length l.
Proof. induction l; intros [|i] x; simpl; auto. Qed.
Lemma set_nth_same {X} : forall (l : list X) i x, i < length l -> nth_error (set_nth i x l) i = Some x.
Proof. induction l; intros [|i] x L; simpl in *; try lia; auto. apply IHl; lia. Qed.
Lemma set_nth_other {X} : forall (l : list X) i j x, i <> j -> nth_error (set_nth i x l) j = nth_error l j.
Proof. induction l; intros [|i] [|j] x N; simpl; auto; try congruence. Qed.
Lemma point_loop_total : forall hs k a, (forall h, In h hs -> fst (h_conn h) < length a) ->
  exists b, point_loop k hs a = Ok b.
Proof.
  induction hs as [|h r IH]; intros k a B; [eexists; reflexivity|]. simpl.
  rewrite (proj2 (Nat.ltb_lt _ _) (B h (or_introl eq_refl))). apply IH. intros h' I. rewrite set_nth_length. apply B; right; auto.
Qed.
(** every entry of points['half_edge'] is a half-edge that starts there; it is
    missing only if no half-edge starts there *)
Lemma point_loop_ok : forall hs k a b, point_loop k hs a = Ok b ->
  length b = length a /\
  forall v o, nth_error b v = Some o ->
    (exists j h, o = Some (k + j) /\ nth_error hs j = Some h /\ fst (h_conn h) = v) \/
    (nth_error a v = Some o /\ forall h, In h hs -> fst (h_conn h) <> v).
Proof.
  induction hs as [|h r IH]; intros k a b E; simpl in E.
  - injection E as <-. split; auto.
  - destruct (Nat.ltb_spec (fst (h_conn h)) (length a)) as [L|L]; [|discriminate].
    destruct (IH _ _ _ E) as [A B]. rewrite set_nth_length in A. split; auto.
    intros v o Eo. destruct (B v o Eo) as [[j [h' [E1 [E2 E3]]]]|[E1 E2]].
    + left. exists (S j), h'. repeat split; auto. rewrite E1. f_equal; lia.
    + destruct (Nat.eq_dec (fst (h_conn h)) v) as [<-|N].
      * rewrite set_nth_same in E1 by auto. injection E1 as <-. left. exists 0, h. repeat split; auto; f_equal; lia.
      * rewrite set_nth_other in E1 by auto. right. split; auto. intros h' [<-|I]; auto.
Qed.
