(** * C27: boundary segments *)
From Coq Require Import List Arith Bool Lia Permutation.
From Verif Require Import Tree Dcel SpecDcel DcelFacts GridFacts Prop_Dcel Segments SegFacts.
Import ListNotations.
Open Scope nat_scope.

(** consecutive half-edges are joined head to base *)
Definition joined (base head : nat -> nat) (l : list nat) : Prop := chain (fun a b => head a = base b) l.

(** For any list of boundary half-edges: every segment is joined head to base
    and no half-edge appears twice.  (That all of them appear is false in
    general, see below.) *)
Theorem C27_segments_sound_partial base head B : NoDup B ->
  exists segs, group base head VMesh B = Ok segs /\
    (forall s, In s segs -> s <> [] /\ joined base head s) /\
    NoDup (concat segs) /\ incl (concat segs) B.
Proof.
  intros N. pose proof (Inv_start base head B N) as I.
  destruct (passes_sound base head B (S (length B)) B (fun h => [h]) None I ltac:(lia)) as [L [H [E J]]].
  exists (map H L). unfold group. rewrite E. cbn [bind fst snd]. split; auto.
  destruct J as [_ [C [D Inc]]]. split; [|split; auto].
  intros s Is. apply in_map_iff in Is. destruct Is as [k [<- Ik]]. apply C; auto.
Qed.
Print Assumptions C27_segments_sound_partial.

(** If no selection of boundary half-edges forms a closed loop, every boundary
    half-edge appears exactly once. *)
Theorem C27_open_boundary_partial base head B : NoDup B ->
  (forall c, c <> [] -> NoDup c -> incl c B -> joined base head c -> head (last c 0) <> base (hd 0 c)) ->
  exists segs, group base head VMesh B = Ok segs /\
    (forall s, In s segs -> s <> [] /\ joined base head s) /\ Permutation (concat segs) B.
Proof.
  intros N NL. pose proof (Inv_start base head B N) as I.
  destruct (passes_open base head B NL (S (length B)) B (fun h => [h]) None I ltac:(lia)) as [L [H [E [J P]]]].
  exists (map H L). unfold group. rewrite E. cbn [bind fst snd]. split; auto.
  destruct J as [_ [C [D Inc]]]. split.
  - intros s Is. apply in_map_iff in Is. destruct Is as [k [<- Ik]]. apply C; auto.
  - unfold cov in P. rewrite P. rewrite <- flat_map_concat_map. clear. induction B; simpl; f_equal; auto.
Qed.
Print Assumptions C27_open_boundary_partial.

(** If the boundary consists of closed loops that do not touch (no two boundary
    half-edges have the same base or the same head), exactly one segment is
    returned, and it is exactly one of the loops: any further loop is lost. *)
Theorem C27_closed_boundary base head B : NoDup B -> 2 <= length B ->
  NoDup (map base B) -> NoDup (map head B) -> (forall a, In a B -> exists b, In b B /\ head a = base b) ->
  exists s, group base head VMesh B = Ok [s] /\ s <> [] /\ NoDup s /\ incl s B /\
    joined base head s /\ head (last s 0) = base (hd 0 s) /\
    (forall a b, In a s -> In b B -> head a = base b -> In b s) /\
    (forall a b, In a s -> In b B -> head b = base a -> In b s).
Proof.
  intros N L2 NB NH T. pose proof (Inv_start base head B N) as I.
  assert (LP : loops base head B) by (repeat split; auto).
  destruct (passes_loops base head B LP (S (length B)) B (fun h => [h]) None I (saturated_start base head B) L2 ltac:(lia))
    as [k [H [E [J S]]]].
  exists (H k). unfold group. rewrite E. cbn [bind fst snd map]. split; auto.
  pose proof J as [_ [C [D Inc]]]. destruct (C k (or_introl eq_refl)) as [Ne Ch].
  assert (Ec : cov [k] H = H k) by (unfold cov; simpl; apply app_nil_r). rewrite Ec in *.
  split; auto. split; auto. split; auto. split; auto. split.
  - destruct (T (last (H k) 0)) as [b [Ib Eb]]; [apply Inc, last_in; auto|].
    destruct (succ_first base head B [k] H k b LP J S (or_introl eq_refl) Ib Eb) as [g [[<-|[]] F]].
    rewrite Eb, <- F. reflexivity.
  - unfold saturated in S. rewrite Ec in S. exact S.
Qed.
Print Assumptions C27_closed_boundary.
(** Consequently every boundary half-edge is returned exactly once if the
    boundary is a single loop ... *)
Theorem C27_single_loop base head B : NoDup B -> 2 <= length B ->
  NoDup (map base B) -> NoDup (map head B) -> (forall a, In a B -> exists b, In b B /\ head a = base b) ->
  (forall s, s <> [] -> incl s B -> (forall a b, In a s -> In b B -> head a = base b -> In b s) -> incl B s) ->
  exists s, group base head VMesh B = Ok [s] /\ Permutation s B /\ joined base head s /\ head (last s 0) = base (hd 0 s).
Proof.
  intros N L2 NB NH T Con. destruct (C27_closed_boundary base head B N L2 NB NH T) as [s [E [Ne [Nd [Inc [J [Cl [S1 S2]]]]]]]].
  exists s. repeat split; auto. apply NoDup_Permutation; auto. intros x; split; [apply Inc|apply (Con s Ne Inc S1)].
Qed.
Print Assumptions C27_single_loop.

(** ** Boundaries of meshes *)
Lemma polygon_bases : forall fc, map fst (polygon_edges fc) = fc.
Proof.
  intros fc. apply list_ext. intros i. rewrite nth_error_map.
  destruct (Nat.lt_ge_cases i (length fc)) as [L|L].
  - rewrite (polygon_edges_nth _ _ 0) by auto. simpl. symmetry. apply nth_error_nth'; auto.
  - rewrite (proj2 (nth_error_None _ _)) by (rewrite polygon_edges_length; auto).
    rewrite (proj2 (nth_error_None _ _)) by auto. reflexivity.
Qed.
Lemma polygon_heads : forall fc, Permutation (map snd (polygon_edges fc)) fc.
Proof.
  intros [|a r]; [constructor|]. replace (map snd (polygon_edges (a :: r))) with (r ++ [a]).
  - symmetry. apply Permutation_cons_append.
  - unfold polygon_edges. change ((a :: r) ++ [a]) with (a :: r ++ [a]).
    assert (G : forall z r a, r ++ [z] = map snd (path_edges (a :: r ++ [z]))).
    { intros z. induction r0 as [|b r0 IH]; intros a0; [reflexivity|].
      change (path_edges (a0 :: (b :: r0) ++ [z])) with ((a0, b) :: path_edges (b :: r0 ++ [z])). simpl. f_equal. apply IH. }
    apply G.
Qed.
Lemma mesh_in_out faces : Permutation (map fst (mesh_edges faces)) (map snd (mesh_edges faces)).
Proof.
  induction faces as [|fc r IH]; simpl; [constructor|]. rewrite !map_app. apply Permutation_app; auto.
  rewrite polygon_bases. symmetry. apply polygon_heads.
Qed.
Definition mem_edge (e : nat * nat) (l : list (nat * nat)) : bool :=
  existsb (fun f => (fst f =? fst e) && (snd f =? snd e)) l.
Lemma mem_edge_in e l : mem_edge e l = true <-> In e l.
Proof.
  unfold mem_edge. rewrite existsb_exists. split.
  - intros [f [I H]]. apply andb_true_iff in H. destruct H as [H1 H2]. apply Nat.eqb_eq in H1, H2.
    destruct e, f; simpl in *; subst; auto.
  - intros I. exists e. split; auto. rewrite !Nat.eqb_refl. reflexivity.
Qed.
Lemma filter_split {X} (p : X -> bool) : forall l, Permutation l (filter p l ++ filter (fun x => negb (p x)) l).
Proof.
  induction l as [|x l IH]; simpl; [constructor|]. destruct (p x); simpl; [constructor; auto|].
  rewrite IH at 1. apply Permutation_middle.
Qed.
(** the boundary edges of a mesh start and end at the same points *)
Lemma boundary_in_out E : NoDup E -> Permutation (map fst E) (map snd E) ->
  let bd := filter (fun e => negb (mem_edge (opposite e) E)) E in Permutation (map fst bd) (map snd bd).
Proof.
  intros N P bd. set (inn := filter (fun e => mem_edge (opposite e) E) E).
  assert (PE : Permutation E (inn ++ bd)) by apply filter_split.
  assert (PI : Permutation (map opposite inn) inn).
  { assert (M : forall e, In e inn <-> In e E /\ In (opposite e) E).
    { intros e. unfold inn. rewrite filter_In, mem_edge_in. tauto. }
    apply NoDup_Permutation.
    - apply FinFun.Injective_map_NoDup; [|apply NoDup_filter; auto]. intros a b H.
      rewrite <- (opposite_invol a), H. apply opposite_invol.
    - apply NoDup_filter; auto.
    - intros e. rewrite in_map_iff. split.
      + intros [f [<- I]]. apply M in I. apply M. rewrite opposite_invol. tauto.
      + intros I. apply M in I. exists (opposite e). split; [apply opposite_invol|]. apply M. rewrite opposite_invol. tauto. }
  assert (PF : Permutation (map fst inn) (map snd inn)).
  { assert (X : map snd inn = map fst (map opposite inn)) by (rewrite map_map; apply map_ext; intros []; reflexivity).
    rewrite X. apply Permutation_map. symmetry; exact PI. }
  rewrite PE in P at 1. rewrite (Permutation_map snd PE) in P. rewrite !map_app in P. rewrite PF in P.
  eapply Permutation_app_inv_l; eauto.
Qed.
Lemma in_boundary_hes n faces d h : polygon_mesh n faces -> determine2 n faces = Ok d ->
  (In h (boundary_hes d) <-> exists x, nth_error (d_hes d) h = Some x /\ ~ In (opposite (h_conn x)) (mesh_edges faces)).
Proof.
  intros PM E. unfold boundary_hes. rewrite filter_In, in_seq. split.
  - intros [L H]. destruct (nth_error (d_hes d) h) as [x|] eqn:Ex; [|apply nth_error_None in Ex; lia].
    exists x. split; auto. destruct (C24_twin _ _ _ _ _ PM E Ex) as [o [Eo [_ [_ [T _]]]]]. rewrite Eo in H.
    apply T. destruct o; [discriminate|auto].
  - intros [x [Ex NI]]. split; [split; [lia|]; apply nth_error_Some; congruence|].
    destruct (C24_twin _ _ _ _ _ PM E Ex) as [o [Eo [_ [_ [T _]]]]]. rewrite Eo. rewrite (proj2 T NI). reflexivity.
Qed.
Lemma boundary_map n faces d : polygon_mesh n faces -> determine2 n faces = Ok d ->
  map (fun h => (he_base d h, he_head d h)) (boundary_hes d) =
  filter (fun e => negb (mem_edge (opposite e) (mesh_edges faces))) (mesh_edges faces).
Proof.
  intros PM E. pose proof (determine2_inv _ _ _ E) as [_ [_ [Eh _]]].
  assert (EM : mesh_edges faces = map h_conn (d_hes d)) by (rewrite Eh, all_hes_conn; auto).
  set (g := fun h => (he_base d h, he_head d h)).
  set (q := fun e => negb (mem_edge (opposite e) (mesh_edges faces))).
  assert (F : boundary_hes d = filter (fun h => q (g h)) (seq 0 (length (d_hes d)))).
  { unfold boundary_hes. apply filter_ext_in. intros h Ih. apply in_seq in Ih.
    destruct (nth_error (d_hes d) h) as [x|] eqn:Ex; [|apply nth_error_None in Ex; lia].
    assert (G : g h = h_conn x) by (unfold g, he_base, he_head; rewrite Ex; destruct (h_conn x); reflexivity).
    rewrite G. destruct (C24_twin _ _ _ _ _ PM E Ex) as [o [Eo [_ [_ [T _]]]]]. rewrite Eo. unfold q.
    destruct (mem_edge (opposite (h_conn x)) (mesh_edges faces)) eqn:M; simpl.
    - apply mem_edge_in in M. destruct o; auto. exfalso. apply T; auto.
    - rewrite (proj2 T); auto. intros I. apply mem_edge_in in I. congruence. }
  rewrite F. assert (EG : mesh_edges faces = map g (seq 0 (length (d_hes d)))).
  { rewrite EM. apply list_ext. intros i. rewrite !nth_error_map.
    destruct (Nat.lt_ge_cases i (length (d_hes d))) as [L|L].
    - rewrite nth_error_seq by auto. destruct (nth_error (d_hes d) i) as [x|] eqn:Ex; [|apply nth_error_None in Ex; lia].
      simpl. unfold g, he_base, he_head. rewrite Ex. destruct (h_conn x); reflexivity.
    - rewrite (proj2 (nth_error_None _ _)) by auto. rewrite (proj2 (nth_error_None _ _)) by (rewrite seq_length; auto). reflexivity. }
  change (map g (filter (fun h => q (g h)) (seq 0 (length (d_hes d)))) = filter q (mesh_edges faces)).
  clearbody q. rewrite EG. generalize (seq 0 (length (d_hes d))). clear - q. induction l as [|h l IH]; simpl; auto.
  destruct (q (g h)); simpl; rewrite IH; reflexivity.
Qed.
(** Every polygon mesh whose boundary does not touch itself (no two boundary
    half-edges start at the same point): get_boundary_segments returns exactly
    one of the closed boundary loops. *)
Theorem C27_mesh_boundary n faces d : polygon_mesh n faces -> determine2 n faces = Ok d ->
  NoDup (map (he_base d) (boundary_hes d)) -> 2 <= length (boundary_hes d) ->
  exists s, coarse_boundary_segments d = Ok [s] /\ s <> [] /\ NoDup s /\ incl s (boundary_hes d) /\
    joined (he_base d) (he_head d) s /\ he_head d (last s 0) = he_base d (hd 0 s) /\
    (forall a b, In a s -> In b (boundary_hes d) -> he_head d a = he_base d b -> In b s).
Proof.
  intros PM E NB L2.
  assert (P : Permutation (map (he_base d) (boundary_hes d)) (map (he_head d) (boundary_hes d))).
  { pose proof (boundary_in_out (mesh_edges faces) (proj2 (proj2 PM)) (mesh_in_out faces)) as P. cbv zeta in P.
    rewrite <- (boundary_map n faces d PM E) in P. rewrite !map_map in P. exact P. }
  assert (ND : NoDup (boundary_hes d)) by (apply NoDup_filter, seq_NoDup).
  destruct (C27_closed_boundary (he_base d) (he_head d) (boundary_hes d) ND L2 NB) as [s [E1 [N1 [D1 [I1 [J1 [C1 [S1 _]]]]]]]].
  - eapply Permutation_NoDup; eauto.
  - intros a Ia. assert (I : In (he_head d a) (map (he_base d) (boundary_hes d))).
    { eapply Permutation_in; [apply Permutation_sym; eauto|]. apply in_map; auto. }
    apply in_map_iff in I. destruct I as [b [Eb Ib]]. exists b. auto.
  - exists s. repeat split; auto.
Qed.
Print Assumptions C27_mesh_boundary.

(** Rectangular grids of every resolution: one closed segment with every
    boundary half-edge exactly once. *)
Theorem C27_rectangle nx ny d : 0 < nx -> 0 < ny -> rectangular2 nx ny = Ok d ->
  exists s, coarse_boundary_segments d = Ok [s] /\ Permutation s (boundary_hes d) /\
    joined (he_base d) (he_head d) s /\ he_head d (last s 0) = he_base d (hd 0 s).
Proof.
  intros Px Py E. pose proof (grid_polygon_mesh nx ny) as PM.
  pose proof (determine2_inv _ _ _ E) as [_ [_ [Eh [Et _]]]].
  assert (Hb : forall ix iy k, ix < nx -> iy < ny -> k < 4 -> he_base d (cell_he nx ix iy k) = pidx nx (side_base ix iy k)).
  { intros. unfold he_base. rewrite Eh, grid_he by auto. reflexivity. }
  assert (Hh : forall ix iy k, ix < nx -> iy < ny -> k < 4 -> he_head d (cell_he nx ix iy k) = pidx nx (side_head ix iy k)).
  { intros. unfold he_head. rewrite Eh, grid_he by auto. reflexivity. }
  assert (Bd : forall h, In h (boundary_hes d) <-> exists ix iy k, ix < nx /\ iy < ny /\ k < 4 /\ h = cell_he nx ix iy k /\ across nx ny ix iy k = None).
  { intros h. unfold boundary_hes. rewrite filter_In, in_seq, Et, Eh. split.
    - intros [L H]. destruct (nth_error (all_hes 0 0 (grid_faces nx ny)) h) as [x|] eqn:Ex; [|apply nth_error_None in Ex; lia].
      destruct (grid_he_all _ _ _ _ Ex) as [ix [iy [k [Lx [Ly [Lk ->]]]]]]. exists ix, iy, k. repeat split; auto.
      rewrite grid_twin in H by auto. destruct (across nx ny ix iy k); [discriminate|auto].
    - intros [ix [iy [k [Lx [Ly [Lk [-> A]]]]]]]. rewrite grid_twin, A by auto. split; auto. split; [lia|].
      apply nth_error_Some. rewrite grid_he by auto. discriminate. }
  set (b := fun x => cell_he nx x 0 0). set (r := fun y => cell_he nx (nx - 1) y 1).
  set (t := fun x => cell_he nx x (ny - 1) 2). set (l := fun y => cell_he nx 0 y 3).
  assert (Ib : forall x, x < nx -> In (b x) (boundary_hes d)) by (intros; apply Bd; exists x, 0, 0; repeat split; auto; lia).
  assert (Ir : forall y, y < ny -> In (r y) (boundary_hes d)).
  { intros y Ly. apply Bd; exists (nx - 1), y, 1. repeat split; auto; try lia. simpl. destruct (Nat.ltb_spec (S (nx - 1)) nx); auto; lia. }
  assert (It : forall x, x < nx -> In (t x) (boundary_hes d)).
  { intros x Lx. apply Bd; exists x, (ny - 1), 2. repeat split; auto; try lia. simpl. destruct (Nat.ltb_spec (S (ny - 1)) ny); auto; lia. }
  assert (Il : forall y, y < ny -> In (l y) (boundary_hes d)) by (intros; apply Bd; exists 0, y, 3; repeat split; auto; lia).
  assert (Four : forall h, In h (boundary_hes d) -> (exists x, x < nx /\ h = b x) \/ (exists y, y < ny /\ h = r y) \/
                                                     (exists x, x < nx /\ h = t x) \/ (exists y, y < ny /\ h = l y)).
  { intros h Ih. apply Bd in Ih. destruct Ih as [ix [iy [k [Lx [Ly [Lk [-> A]]]]]]].
    destruct k as [|[|[|[|k]]]]; try lia; simpl in A.
    - destruct iy; [|discriminate]. left. exists ix. auto.
    - destruct (Nat.ltb_spec (S ix) nx); [discriminate|]. right; left. exists iy. split; auto. unfold r. f_equal. lia.
    - destruct (Nat.ltb_spec (S iy) ny); [discriminate|]. right; right; left. exists ix. split; auto. unfold t. f_equal. lia.
    - destruct ix; [|discriminate]. right; right; right. exists iy. auto. }
  (* successors *)
  assert (SB : forall x, x < nx -> he_head d (b x) = pidx nx (S x, 0)) by (intros; unfold b; rewrite Hh by lia; reflexivity).
  assert (SR : forall y, y < ny -> he_head d (r y) = pidx nx (nx, S y)).
  { intros; unfold r; rewrite Hh by lia. simpl. replace (S (nx - 1)) with nx by lia. reflexivity. }
  assert (ST : forall x, x < nx -> he_head d (t x) = pidx nx (x, ny)).
  { intros; unfold t; rewrite Hh by lia. simpl. replace (S (ny - 1)) with ny by lia. reflexivity. }
  assert (SL : forall y, y < ny -> he_head d (l y) = pidx nx (0, y)) by (intros; unfold l; rewrite Hh by lia; reflexivity).
  assert (BB : forall x, x < nx -> he_base d (b x) = pidx nx (x, 0)) by (intros; unfold b; rewrite Hb by lia; reflexivity).
  assert (BR : forall y, y < ny -> he_base d (r y) = pidx nx (nx, y)).
  { intros; unfold r; rewrite Hb by lia. simpl. replace (S (nx - 1)) with nx by lia. reflexivity. }
  assert (BT : forall x, x < nx -> he_base d (t x) = pidx nx (S x, ny)).
  { intros; unfold t; rewrite Hb by lia. simpl. replace (S (ny - 1)) with ny by lia. reflexivity. }
  assert (BL : forall y, y < ny -> he_base d (l y) = pidx nx (0, S y)) by (intros; unfold l; rewrite Hb by lia; reflexivity).
  assert (Con : forall s, s <> [] -> incl s (boundary_hes d) ->
    (forall a c, In a s -> In c (boundary_hes d) -> he_head d a = he_base d c -> In c s) -> incl (boundary_hes d) s).
  { intros s Ne Inc Cl.
    assert (CB : forall x, S x < nx -> In (b x) s -> In (b (S x)) s).
    { intros x Lx I. apply (Cl (b x)); auto. rewrite SB, BB by lia. reflexivity. }
    assert (CBR : In (b (nx - 1)) s -> In (r 0) s).
    { intros I. apply (Cl (b (nx - 1))); auto. rewrite SB, BR by lia. f_equal. f_equal. lia. }
    assert (CR : forall y, S y < ny -> In (r y) s -> In (r (S y)) s).
    { intros y Ly I. apply (Cl (r y)); auto. rewrite SR, BR by lia. reflexivity. }
    assert (CRT : In (r (ny - 1)) s -> In (t (nx - 1)) s).
    { intros I. apply (Cl (r (ny - 1))); auto. apply It; lia. rewrite SR, BT by lia. f_equal. f_equal; lia. }
    assert (CT : forall x, S x < nx -> In (t (S x)) s -> In (t x) s).
    { intros x Lx I. apply (Cl (t (S x))); auto. apply It; lia. rewrite ST, BT by lia. reflexivity. }
    assert (CTL : In (t 0) s -> In (l (ny - 1)) s).
    { intros I. apply (Cl (t 0)); auto. apply Il; lia. rewrite ST, BL by lia. f_equal. f_equal; lia. }
    assert (CL : forall y, S y < ny -> In (l (S y)) s -> In (l y) s).
    { intros y Ly I. apply (Cl (l (S y))); auto. apply Il; lia. rewrite SL, BL by lia. reflexivity. }
    assert (CLB : In (l 0) s -> In (b 0) s).
    { intros I. apply (Cl (l 0)); auto. rewrite SL, BB by lia. reflexivity. }
    assert (UB : forall x z, x <= z -> z < nx -> In (b x) s -> In (b z) s).
    { intros x z Lz Hz I. induction Lz as [|z Lz IH]; auto. apply CB; auto. apply IH. lia. }
    assert (UR : forall x z, x <= z -> z < ny -> In (r x) s -> In (r z) s).
    { intros x z Lz Hz I. induction Lz as [|z Lz IH]; auto. apply CR; auto. apply IH. lia. }
    assert (DT : forall x z, x <= z -> z < nx -> In (t z) s -> In (t x) s).
    { intros x z Lz. induction Lz as [|z Lz IH]; auto. intros Hz I. apply IH; [lia|]. apply CT; auto. }
    assert (DL : forall x z, x <= z -> z < ny -> In (l z) s -> In (l x) s).
    { intros x z Lz. induction Lz as [|z Lz IH]; auto. intros Hz I. apply IH; [lia|]. apply CL; auto. }
    assert (b2r : forall x, x < nx -> In (b x) s -> In (r 0) s) by (intros x Lx I; apply CBR; apply (UB x); auto; lia).
    assert (r2t : forall x, x < ny -> In (r x) s -> In (t (nx - 1)) s) by (intros x Lx I; apply CRT; apply (UR x); auto; lia).
    assert (t2l : forall x, x < nx -> In (t x) s -> In (l (ny - 1)) s) by (intros x Lx I; apply CTL; apply (DT 0 x); auto; lia).
    assert (l2b : forall x, x < ny -> In (l x) s -> In (b 0) s) by (intros x Lx I; apply CLB; apply (DL 0 x); auto; lia).
    assert (B0 : In (b 0) s).
    { destruct s as [|h s0]; [congruence|]. destruct (Four h (Inc h (or_introl eq_refl))) as [[x [Lx ->]]|[[x [Lx ->]]|[[x [Lx ->]]|[x [Lx ->]]]]].
      - apply (l2b (ny - 1)); [lia|]. apply (t2l (nx - 1)); [lia|]. apply (r2t 0); [lia|]. apply (b2r x); auto. left; auto.
      - apply (l2b (ny - 1)); [lia|]. apply (t2l (nx - 1)); [lia|]. apply (r2t x); [lia|]. left; auto.
      - apply (l2b (ny - 1)); [lia|]. apply (t2l x); [lia|]. left; auto.
      - apply (l2b x); auto. left; auto. }
    assert (R0 : In (r 0) s) by (apply (b2r 0); auto; lia).
    assert (T0 : In (t (nx - 1)) s) by (apply (r2t 0); auto; lia).
    assert (L0 : In (l (ny - 1)) s) by (apply (t2l (nx - 1)); auto; lia).
    intros h Ih. destruct (Four h Ih) as [[x [Lx ->]]|[[x [Lx ->]]|[[x [Lx ->]]|[x [Lx ->]]]]].
    - apply (UB 0); auto; lia.
    - apply (UR 0); auto; lia.
    - apply (DT x (nx - 1)); auto; lia.
    - apply (DL x (ny - 1)); auto; lia. }
  assert (Inj : forall p q, fst p <= nx -> fst q <= nx -> pidx nx p = pidx nx q -> p = q) by (intros; eapply pidx_inj; eauto).
  assert (NB : NoDup (map (he_base d) (boundary_hes d))).
  { assert (ND : NoDup (boundary_hes d)) by (apply NoDup_filter, seq_NoDup). revert ND Four. clear - Px Py BB BR BT BL Inj.
    assert (Q : forall a c, ((exists x, x < nx /\ a = b x) \/ (exists y, y < ny /\ a = r y) \/ (exists x, x < nx /\ a = t x) \/ (exists y, y < ny /\ a = l y)) ->
       ((exists x, x < nx /\ c = b x) \/ (exists y, y < ny /\ c = r y) \/ (exists x, x < nx /\ c = t x) \/ (exists y, y < ny /\ c = l y)) ->
       he_base d a = he_base d c -> a = c).
    { intros a c [[x [Lx ->]]|[[x [Lx ->]]|[[x [Lx ->]]|[x [Lx ->]]]]] [[y [Ly ->]]|[[y [Ly ->]]|[[y [Ly ->]]|[y [Ly ->]]]]];
        rewrite ?BB, ?BR, ?BT, ?BL by auto; intros Q; apply Inj in Q; simpl; try lia; inversion Q; try lia; f_equal; lia. }
    generalize (boundary_hes d). induction l0 as [|h L IH]; intros ND F; simpl; [constructor|].
    inversion ND; subst. constructor; [|apply IH; auto; intros; apply F; right; auto].
    intros I. apply in_map_iff in I. destruct I as [c [Ec Ic]]. apply Q in Ec.
    - subst. contradiction.
    - apply F; right; auto.
    - apply F; left; auto. }
  assert (L2 : 2 <= length (boundary_hes d)).
  { assert (In (b 0) (boundary_hes d)) by auto. assert (In (l 0) (boundary_hes d)) by auto.
    destruct (boundary_hes d) as [|h1 [|h2 L]]; simpl in *; try lia; try contradiction.
    destruct H as [H|[]], H0 as [H0|[]]. exfalso. assert (b 0 = l 0) by congruence. unfold b, l, cell_he in H1. lia. }
  destruct (C27_mesh_boundary _ _ d PM E NB L2) as [s [E1 [N1 [D1 [I1 [J1 [C1 S1]]]]]]].
  exists s. repeat split; auto. apply NoDup_Permutation; auto.
  - apply NoDup_filter, seq_NoDup.
  - intros x; split; [apply I1|apply (Con s N1 I1 S1)].
Qed.
Print Assumptions C27_rectangle.

(** The full claim is false when the domain has a hole: of the 16 boundary
    half-edges of a ring of eight squares only the 4 around the hole are
    returned. *)
Definition ring : list (list nat) :=
  [[0; 1; 5; 4]; [1; 2; 6; 5]; [2; 3; 7; 6]; [4; 5; 9; 8]; [6; 7; 11; 10]; [8; 9; 13; 12]; [9; 10; 14; 13]; [10; 11; 15; 14]].
Theorem C27_hole_refuted : polygon_mesh 16 ring /\ exists d, determine2 16 ring = Ok d /\
  length (boundary_hes d) = 16 /\ coarse_boundary_segments d = Ok [[19; 6; 13; 24]].
Proof.
  split; [|vm_compute; eexists; repeat split].
  split; [repeat constructor; discriminate|]. split; [repeat (constructor; [repeat constructor; auto with arith|]); try constructor; lia|].
  vm_compute. repeat (constructor; [simpl; intuition discriminate|]). constructor.
Qed.
Print Assumptions C27_hole_refuted.
(** DCEL.get_boundary_half_edges: already for a 3 x 1 grid the half-edges of the
    segment are not joined head to base; and without any boundary it raises. *)
Theorem C27_dcel_order_refuted : exists d s, rectangular2 3 1 = Ok d /\
  get_boundary_half_edges d = Ok [s] /\ Permutation s (boundary_hes d) /\ ~ joined (he_base d) (he_head d) s.
Proof.
  eexists. eexists. split; [vm_compute; reflexivity|]. split; [vm_compute; reflexivity|]. split.
  - apply NoDup_Permutation; vm_compute; [repeat (constructor; [simpl; intuition discriminate|]); constructor..|].
    intros x. intuition.
  - vm_compute. intros [H _]. discriminate.
Qed.
Print Assumptions C27_dcel_order_refuted.
Theorem C27_dcel_no_boundary_refuted base head : group base head VDcel [] = Err NameError /\ group base head VMesh [] = Ok [].
Proof. split; reflexivity. Qed.
Print Assumptions C27_dcel_no_boundary_refuted.

(** ** Selecting by a label *)
(** All labelled half-edges are kept, in order, and so are possibly others. *)
Theorem C27_label_partial marked l : forall sk,
  filter marked (throw_out marked sk l) = filter marked l /\ incl (throw_out marked sk l) l.
Proof.
  induction l as [|h r IH]; intros sk; simpl; [split; auto using incl_refl|].
  destruct (IH false) as [F1 I1]. destruct (IH true) as [F2 I2].
  destruct sk.
  - simpl. rewrite F1. split; [reflexivity|]. intros x [<-|I]; [left; auto|right; apply I1; auto].
  - destruct (marked h) eqn:M.
    + simpl. rewrite M, F1. split; [reflexivity|]. intros x [<-|I]; [left; auto|right; apply I1; auto].
    + split; [exact F2|]. intros x I. right. apply I2; auto.
Qed.
Print Assumptions C27_label_partial.
(** The claim that exactly the labelled ones are returned is false: of any two
    consecutive half-edges without the label at the start of a segment, the
    second one is returned. *)
Theorem C27_label_refuted marked a b r : marked a = false -> marked b = false -> In b (throw_out marked false (a :: b :: r)).
Proof. intros A B. simpl. rewrite A. left; auto. Qed.
Print Assumptions C27_label_refuted.
Example C27_case : exists d, rectangular2 2 2 = Ok d /\ boundary_hes d = [0; 3; 4; 5; 10; 11; 13; 14] /\
  coarse_boundary_segments d = Ok [[10; 11; 3; 0; 4; 5; 13; 14]] /\
  throw_out (fun h => h <? 5) false [14; 10; 11; 3; 0; 4; 5; 13] = [10; 3; 0; 4; 13].
Proof. eexists. vm_compute. repeat split. Qed.
