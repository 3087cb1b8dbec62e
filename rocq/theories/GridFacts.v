(** * Facts about rectangular grids *)
From Coq Require Import List Arith Bool Lia.
From Verif Require Import Tree Geom Dcel SpecDcel DcelFacts.
Import ListNotations.
Open Scope nat_scope.

Lemma nth_error_flat_rows {X} (row : nat -> list X) (w : nat) : (forall y, length (row y) = w) ->
  forall n s y x, y < n -> x < w -> nth_error (flat_map row (seq s n)) (y * w + x) = nth_error (row (s + y)) x.
Proof.
  intros W. induction n as [|n IH]; intros s y x Ly Lx; [lia|]. simpl.
  destruct y as [|y].
  - rewrite nth_error_app1 by (rewrite W; simpl; lia). rewrite Nat.add_0_r. reflexivity.
  - rewrite nth_error_app2 by (rewrite W; simpl; nia). rewrite W.
    replace (S y * w + x - w) with (y * w + x) by (simpl; lia). rewrite IH by lia. f_equal. f_equal; lia.
Qed.
Lemma flat_rows_length {X} (row : nat -> list X) (w : nat) : (forall y, length (row y) = w) ->
  forall n s, length (flat_map row (seq s n)) = n * w.
Proof. intros W. induction n as [|n IH]; intros s; simpl; auto. rewrite app_length, W, IH. reflexivity. Qed.

Lemma grid_faces_nth nx ny ix iy : ix < nx -> iy < ny ->
  nth_error (grid_faces nx ny) (iy * nx + ix) = Some (grid_face nx ix iy).
Proof.
  intros Lx Ly. unfold grid_faces. rewrite (nth_error_flat_rows _ nx); auto.
  - rewrite nth_error_map, nth_error_seq by auto. reflexivity.
  - intros y. rewrite map_length, seq_length. reflexivity.
Qed.
Lemma grid_faces_length nx ny : length (grid_faces nx ny) = nx * ny.
Proof. unfold grid_faces. rewrite (flat_rows_length _ nx). lia. intros y. rewrite map_length, seq_length. reflexivity. Qed.
Lemma in_grid_faces nx ny fc : In fc (grid_faces nx ny) -> exists ix iy, ix < nx /\ iy < ny /\ fc = grid_face nx ix iy.
Proof.
  unfold grid_faces. intros I. apply in_flat_map in I. destruct I as [iy [Iy I]]. apply in_map_iff in I.
  destruct I as [ix [<- Ix]]. apply in_seq in Iy, Ix. exists ix, iy. repeat split; lia || auto.
Qed.
Lemma grid_cell nx ny f : f < nx * ny -> exists ix iy, ix < nx /\ iy < ny /\ f = iy * nx + ix.
Proof.
  intros L. assert (nx <> 0) by (intros ->; simpl in L; lia).
  exists (f mod nx), (f / nx). pose proof (Nat.mod_upper_bound f nx H). pose proof (Nat.div_mod f nx H).
  repeat split; auto; [|lia]. apply Nat.div_lt_upper_bound; auto.
Qed.
Lemma cell_inj nx a b c d : a < nx -> c < nx -> b * nx + a = d * nx + c -> a = c /\ b = d.
Proof.
  intros La Lc E. destruct (Nat.lt_trichotomy b d) as [T|[T|T]].
  - exfalso. assert (b * nx + nx <= d * nx) by nia. lia.
  - subst; lia.
  - exfalso. assert (d * nx + nx <= b * nx) by nia. lia.
Qed.
Lemma idx_inj nx x y x' y' : x <= nx -> x' <= nx -> grid_idx nx x y = grid_idx nx x' y' -> x = x' /\ y = y'.
Proof. unfold grid_idx. intros. apply (cell_inj (nx + 1)); lia. Qed.
Lemma idx_bound nx ny x y : x <= nx -> y <= ny -> grid_idx nx x y < (nx + 1) * (ny + 1).
Proof. unfold grid_idx. intros. nia. Qed.

(** base point and head point (grid coordinates) of side [k] of cell (ix, iy) *)
Definition side_base (ix iy k : nat) : nat * nat :=
  match k with 0 => (ix, iy) | 1 => (S ix, iy) | 2 => (S ix, S iy) | _ => (ix, S iy) end.
Definition side_head (ix iy k : nat) : nat * nat :=
  match k with 0 => (S ix, iy) | 1 => (S ix, S iy) | 2 => (ix, S iy) | _ => (ix, iy) end.
Definition pidx (nx : nat) (p : nat * nat) := grid_idx nx (fst p) (snd p).

Lemma offset4 nx ny : forall f, f <= nx * ny -> offset (grid_faces nx ny) f = 4 * f.
Proof.
  induction f as [|f IH]; intros L; [reflexivity|].
  destruct (grid_cell nx ny f) as [ix [iy [Lx [Ly E]]]]; [lia|].
  rewrite (offset_S _ f (grid_face nx ix iy)); [|rewrite E; apply grid_faces_nth; auto].
  rewrite IH by lia. simpl; lia.
Qed.
Definition cell_he (nx ix iy k : nat) : nat := 4 * (iy * nx + ix) + k.
Lemma cell_lt nx ny ix iy : ix < nx -> iy < ny -> iy * nx + ix < nx * ny.
Proof. intros. nia. Qed.
Lemma mod4 k : (k = 0 \/ k = 1 \/ k = 2 \/ k = 3) <-> k < 4.
Proof. lia. Qed.
Lemma grid_he nx ny ix iy k : ix < nx -> iy < ny -> k < 4 ->
  nth_error (all_hes 0 0 (grid_faces nx ny)) (cell_he nx ix iy k) =
  Some (mkH (pidx nx (side_base ix iy k), pidx nx (side_head ix iy k))
            (Some (cell_he nx ix iy ((k + 3) mod 4))) (Some (cell_he nx ix iy ((k + 1) mod 4)))
            (Some (iy * nx + ix))).
Proof.
  intros Lx Ly Lk. unfold cell_he. pose proof (cell_lt _ _ _ _ Lx Ly) as Lc.
  rewrite <- (offset4 nx ny) by lia.
  rewrite (all_hes_nth _ 0 0 _ (grid_face nx ix iy)); [|apply grid_faces_nth; auto|exact Lk].
  f_equal. replace (length (grid_face nx ix iy)) with 4 by reflexivity.
  replace (k + 4 - 1) with (k + 3) by lia. cbn [plus]. f_equal.
  apply mod4 in Lk. destruct Lk as [->|[->|[->| ->]]]; unfold pidx, grid_face; simpl; rewrite ?Nat.add_1_r; reflexivity.
Qed.
Lemma grid_he_all nx ny h x : nth_error (all_hes 0 0 (grid_faces nx ny)) h = Some x ->
  exists ix iy k, ix < nx /\ iy < ny /\ k < 4 /\ h = cell_he nx ix iy k.
Proof.
  intros E. assert (L : h < length (mesh_edges (grid_faces nx ny))).
  { rewrite <- (all_hes_length _ 0 0). apply nth_error_Some; congruence. }
  destruct (he_side _ _ L) as [f [fc [k [Ef [Lk ->]]]]].
  assert (Lf : f < nx * ny) by (rewrite <- (grid_faces_length nx ny); apply nth_error_Some; congruence).
  destruct (grid_cell nx ny f Lf) as [ix [iy [Lx [Ly ->]]]].
  rewrite grid_faces_nth in Ef by auto. injection Ef as <-.
  exists ix, iy, k. repeat split; auto. unfold side_he, cell_he. rewrite offset4 by lia. reflexivity.
Qed.
Lemma base_bound ix iy k nx : ix < nx -> fst (side_base ix iy k) <= nx.
Proof. destruct k as [|[|[|k]]]; simpl; lia. Qed.
Lemma head_bound ix iy k nx : ix < nx -> fst (side_head ix iy k) <= nx.
Proof. destruct k as [|[|[|k]]]; simpl; lia. Qed.
Lemma pidx_inj nx p q : fst p <= nx -> fst q <= nx -> pidx nx p = pidx nx q -> p = q.
Proof. unfold pidx. intros A B E. destruct (idx_inj _ _ _ _ _ A B E). destruct p, q; simpl in *; congruence. Qed.
(** a directed grid edge determines the cell and the side *)
Lemma side_unique ix iy k ix' iy' k' : k < 4 -> k' < 4 ->
  side_base ix iy k = side_base ix' iy' k' -> side_head ix iy k = side_head ix' iy' k' ->
  ix = ix' /\ iy = iy' /\ k = k'.
Proof.
  intros L L' B H.
  destruct k as [|[|[|[|k]]]]; try lia; destruct k' as [|[|[|[|k']]]]; try lia; simpl in *;
    injection B as ? ?; injection H as ? ?; lia.
Qed.
Lemma grid_edges_nodup nx ny : NoDup (mesh_edges (grid_faces nx ny)).
Proof.
  rewrite <- (all_hes_conn _ 0 0). apply NoDup_nth_error. intros i j L E.
  rewrite map_length in L. rewrite !nth_error_map in E.
  destruct (nth_error (all_hes 0 0 (grid_faces nx ny)) i) as [x|] eqn:Ex; [|apply nth_error_None in Ex; lia].
  destruct (nth_error (all_hes 0 0 (grid_faces nx ny)) j) as [y|] eqn:Ey; [|discriminate].
  destruct (grid_he_all _ _ _ _ Ex) as [a [b [k [La [Lb [Lk ->]]]]]].
  destruct (grid_he_all _ _ _ _ Ey) as [a' [b' [k' [La' [Lb' [Lk' ->]]]]]].
  rewrite grid_he in Ex by auto. rewrite grid_he in Ey by auto. injection Ex as <-. injection Ey as <-.
  simpl in E. injection E as E1 E2.
  apply pidx_inj in E1; auto using base_bound. apply pidx_inj in E2; auto using head_bound.
  destruct (side_unique _ _ _ _ _ _ Lk Lk' E1 E2) as [-> [-> ->]]. reflexivity.
Qed.
Lemma grid_polygon_mesh nx ny : polygon_mesh ((nx + 1) * (ny + 1)) (grid_faces nx ny).
Proof.
  split; [|split].
  - apply Forall_forall. intros fc I. destruct (in_grid_faces _ _ _ I) as [ix [iy [_ [_ ->]]]]. discriminate.
  - apply Forall_forall. intros fc I. destruct (in_grid_faces _ _ _ I) as [ix [iy [Lx [Ly ->]]]].
    unfold grid_face. repeat constructor; apply idx_bound; lia.
  - apply grid_edges_nodup.
Qed.
Lemma grid_simple nx ny : Forall simple_face (grid_faces nx ny).
Proof.
  apply Forall_forall. intros fc I. destruct (in_grid_faces _ _ _ I) as [ix [iy [Lx [Ly ->]]]].
  split; [|simpl; lia].
  assert (N : forall x y x' y', x <= nx -> x' <= nx -> (x, y) <> (x', y') -> grid_idx nx x y <> grid_idx nx x' y').
  { intros x y x' y' A B D E. apply D. destruct (idx_inj _ _ _ _ _ A B E); congruence. }
  unfold grid_face.
  repeat (apply NoDup_cons; [intros I'; repeat (destruct I' as [I'|I']);
     try contradiction; revert I'; apply N; try lia; intros [=]; lia|]). constructor.
Qed.
(** the half-edge on the other side *)
Definition across (nx ny ix iy k : nat) : option nat :=
  match k with
  | 0 => match iy with O => None | S j => Some (cell_he nx ix j 2) end
  | 1 => if S ix <? nx then Some (cell_he nx (S ix) iy 3) else None
  | 2 => if S iy <? ny then Some (cell_he nx ix (S iy) 0) else None
  | _ => match ix with O => None | S j => Some (cell_he nx j iy 1) end
  end.
Lemma across_opposite nx ny ix iy k t : ix < nx -> iy < ny -> k < 4 -> across nx ny ix iy k = Some t ->
  exists y, nth_error (all_hes 0 0 (grid_faces nx ny)) t = Some y /\
  h_conn y = opposite (pidx nx (side_base ix iy k), pidx nx (side_head ix iy k)).
Proof.
  intros Lx Ly Lk E. destruct k as [|[|[|[|k]]]]; try lia; simpl in E.
  - destruct iy as [|j]; [discriminate|]. injection E as <-. eexists. rewrite grid_he by lia. split; reflexivity.
  - destruct (Nat.ltb_spec (S ix) nx); [|discriminate]. injection E as <-. eexists. rewrite grid_he by lia. split; reflexivity.
  - destruct (Nat.ltb_spec (S iy) ny); [|discriminate]. injection E as <-. eexists. rewrite grid_he by lia. split; reflexivity.
  - destruct ix as [|j]; [discriminate|]. injection E as <-. eexists. rewrite grid_he by lia. split; reflexivity.
Qed.
Lemma opposite_across nx ny ix iy k ix' iy' k' : ix < nx -> iy < ny -> ix' < nx -> iy' < ny -> k < 4 -> k' < 4 ->
  side_base ix' iy' k' = side_head ix iy k -> side_head ix' iy' k' = side_base ix iy k ->
  across nx ny ix iy k = Some (cell_he nx ix' iy' k').
Proof.
  intros A B A' B' L L' E1 E2.
  destruct k as [|[|[|[|k]]]]; try lia; destruct k' as [|[|[|[|k']]]]; try lia; simpl in *;
    injection E1 as ? ?; injection E2 as ? ?; subst; try lia; auto.
  - destruct (Nat.ltb_spec (S ix) nx); [auto|lia].
  - destruct (Nat.ltb_spec (S iy) ny); [auto|lia].
Qed.
Lemma grid_twin nx ny ix iy k : ix < nx -> iy < ny -> k < 4 ->
  nth_error (twins (all_hes 0 0 (grid_faces nx ny))) (cell_he nx ix iy k) = Some (across nx ny ix iy k).
Proof.
  intros Lx Ly Lk. pose proof (grid_edges_nodup nx ny) as ND. rewrite <- (all_hes_conn _ 0 0) in ND.
  destruct (twins_spec _ _ _ ND (grid_he nx ny ix iy k Lx Ly Lk)) as [o [Eo So]]. rewrite Eo. f_equal. cbn [h_conn] in So.
  destruct (across nx ny ix iy k) as [t|] eqn:Ea.
  - apply So. eapply across_opposite; eauto.
  - destruct o as [t|]; auto. exfalso. destruct (proj1 (So t) eq_refl) as [y [Ey Cy]].
    destruct (grid_he_all _ _ _ _ Ey) as [a [b [j [La [Lb [Lj ->]]]]]].
    rewrite grid_he in Ey by auto. injection Ey as <-. cbn [h_conn] in Cy. unfold opposite in Cy; cbn [fst snd] in Cy.
    injection Cy as C1 C2. apply pidx_inj in C1; auto using base_bound, head_bound.
    apply pidx_inj in C2; auto using base_bound, head_bound.
    rewrite (opposite_across nx ny ix iy k a b j) in Ea; auto. discriminate.
Qed.
