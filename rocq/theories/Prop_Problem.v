(** * C81: Dirichlet conditions, C82: the forms of a problem, C83: the solution of a problem
    (1D meshes, from the mesh to the finite element solution) *)
From Coq Require Import List Arith Bool Lia Permutation QArith Lqa.
From Verif Require Import Tree Forest SpecForest Geom SpecGeom Fem SpecFem ShapeFacts Dof SpecDof DofVert SpecDofVert Basis Solver SpecSolver SolverFacts Nodal NodalFacts Nodal1 SpecNodal
  Nodal1Facts Nodal1Main Nodal1Interp Nodal1More Region Region1 SpecRegion1 Assemble SpecAssemble Kernel SpecKernel Dirichlet1 Prop_Kernel SpecProblem ProblemFacts ProblemMain.
From Verif Require Prop_Shape Prop_DofVert Prop_RegionDof1 Prop_Nodal AssembleFacts Prop_Assemble Dof1DHist DofVertHist.
Import ListNotations.
Open Scope Q_scope.

(** ** C82 *)
Lemma total_ext {X} (h h' : X -> Q) l : (forall x, In x l -> h x == h' x) -> total h l == total h' l.
Proof. apply qsum_ext. Qed.
Lemma total_f2 {X Y} (R : X -> Y -> Prop) (h : X -> Q) (h' : Y -> Q) l l' : Forall2 R l l' -> (forall x y, R x y -> h x == h' y) -> total h l == total h' l'.
Proof. intros F E. induction F as [|x y l l' H F IH]; unfold total in *; cbn; [reflexivity|]. rewrite (E x y H), IH. reflexivity. Qed.

Definition local_values e f sf s M bases rule (p : path) (t : term) (loc : local) : Prop :=
       (forall v u V W, represents e f sf s v V -> represents e f sf s u W -> bilinear_local v u loc == match fm_test (fst t), fm_trial (fst t) with
         | Some i, Some j => integral M rule (fm_dmu (fst t)) (fm_flag (fst t)) p (fun x => snd t p x * V (der_of bases i) p x * W (der_of bases j) p x) | _, _ => 0 end) /\
       (forall v V, represents e f sf s v V -> linear_local v loc == match fm_test (fst t), fm_trial (fst t) with
         | Some i, None => integral M rule (fm_dmu (fst t)) (fm_flag (fst t)) p (fun x => snd t p x * V (der_of bases i) p x) | _, _ => 0 end) /\
       constant_local loc == match fm_test (fst t) with None => integral M rule (fm_dmu (fst t)) (fm_flag (fst t)) p (fun x => snd t p x) | _ => 0 end.

(** The local forms that assembly adds up, on any leaves, are those of the finite element
    functions: the bilinear, linear and constant forms of the problem at two functions are the
    quadrature of kernel times (derivatives of) test function times (derivatives of) trial
    function over the labelled cells and vertices. *)
Theorem C82_forms periodic a b e f sf s dv L B lab bases rule terms ps :
  in_use periodic a b e f sf s dv L B -> rule_ok rule -> Forall (term_ok e (mkM1 f periodic lab) sf s bases) terms -> (forall p, In p ps -> sub_leaf f sf p) ->
  exists cells, problem_cells e (mkM1 f periodic lab) s bases rule (map fst terms) ps = Ok cells /\
    problem (map (fun t => form_dim (fst t)) terms) cells /\ galerkin cells /\ (forall d, cell_dof cells d -> In d L) /\
    (forall v u V W, represents e f sf s v V -> represents e f sf s u W -> over_cells (bilinear_local v u) cells == bilinear_value (mkM1 f periodic lab) rule bases terms ps V W) /\
    (forall v V, represents e f sf s v V -> over_cells (linear_local v) cells == linear_value (mkM1 f periodic lab) rule bases terms ps V) /\
    over_cells constant_local cells == constant_value (mkM1 f periodic lab) rule terms ps.
Proof.
  intros U RO TK PS. set (M := mkM1 f periodic lab).
  assert (C1 : forall p, sub_leaf f sf p -> exists ds ls, cell_locals e M s bases rule (map fst terms) p = Ok ls /\ (forall d, In d ds -> In d L) /\
     Forall2 (fun t loc => good_local ds (fst t) loc /\ local_values e f sf s M bases rule p t loc) terms ls).
  { intros p [n [En Ln]]. destruct (leaf_dofs U p n En Ln) as [ds [Ed [_ [_ DL]]]]. unfold cell_locals. cbn [m1_cells M]. rewrite En, Ed. exists ds.
    assert (G : exists ls, map_res (fun fm => local_form e M bases rule fm p (n_data n) ds) (map fst terms) = Ok ls /\
      Forall2 (fun t loc => good_local ds (fst t) loc /\ local_values e f sf s M bases rule p t loc) terms ls); [|destruct G as [ls [G1 G2]]; exists ls; split; [exact G1|split; [exact DL|exact G2]]].
    clear PS. induction TK as [|t terms Ht TK IH]; [exists []; split; [reflexivity|constructor]|]. destruct IH as [ls [E1 F1]].
    destruct (local_ok U lab bases rule RO t p n ds Ht En Ln Ed) as [loc [El Hl]]. exists (loc :: ls). split; [|constructor; [exact Hl|exact F1]].
    cbn [map map_res]. fold M in El. rewrite El. cbn [bind]. rewrite E1. reflexivity. }
  assert (C2 : forall qs j, (forall p, In p qs -> sub_leaf f sf p) -> exists cells,
     map_res (fun ip => bind (cell_locals e M s bases rule (map fst terms) (snd ip)) (fun l => Ok (fst ip, l))) (combine (seq j (length qs)) qs) = Ok cells /\
     map fst cells = seq j (length qs) /\ Forall2 (fun p c => exists ds, cell_locals e M s bases rule (map fst terms) p = Ok (snd c) /\ (forall d, In d ds -> In d L) /\ Forall2 (fun t loc => good_local ds (fst t) loc /\ local_values e f sf s M bases rule p t loc) terms (snd c)) qs cells).
  { induction qs as [|p qs IH]; intros j Hq; [exists []; cbn; auto|]. destruct (C1 p (Hq p (or_introl eq_refl))) as [ds [ls [E1 H1]]].
    destruct (IH (S j)) as [cells [E2 [E3 E4]]]; [intros q I; apply Hq; right; exact I|]. exists ((j, ls) :: cells). cbn [length seq combine map_res snd fst]. rewrite E1. cbn [bind]. rewrite E2. split; [reflexivity|].
    cbn [map fst]. rewrite E3. split; [reflexivity|]. constructor; [exists ds; split; [exact E1|exact H1]|exact E4]. }
  destruct (C2 ps 0%nat PS) as [cells [E [EF FC]]]. exists cells. split; [exact E|].
  assert (IC : forall c, In c cells -> exists p ds, In p ps /\ (forall d, In d ds -> In d L) /\ Forall2 (fun t loc => good_local ds (fst t) loc) terms (snd c)).
  { intros c I. clear - FC I. induction FC as [|p c' qs cs [ds [_ [H1 H2]]] F IH]; [destruct I|]. destruct I as [->|I]; [|destruct (IH I) as [p' [ds' [A C]]]; exists p', ds'; split; [right; exact A|exact C]].
    exists p, ds. split; [left; reflexivity|]. split; [exact H1|]. clear - H2. induction H2 as [|t loc l l' [H _] F IH]; constructor; auto. }
  split; [|split; [|split; [|split; [|split]]]].
  - split; [rewrite EF; apply seq_NoDup|]. apply Forall_forall. intros c I. destruct (IC c I) as [p [ds [_ [_ F]]]]. split.
    + clear - F. induction F as [|t loc l l' [H _] F IH]; cbn; [reflexivity|]. rewrite H, IH. reflexivity.
    + clear - F. induction F as [|t loc l l' [_ [H _]] F IH]; constructor; auto.
  - apply Forall_forall. intros c I. destruct (IC c I) as [p [ds [_ [_ F]]]]. exists ds. clear - F. induction F as [|t loc l l' [_ [_ H]] F IH]; constructor; auto.
  - intros d [c [loc [I [Il Id]]]]. destruct (IC c I) as [p [ds [_ [DL F]]]]. apply DL. clear - F Il Id. induction F as [|t loc' l l' [_ [_ H]] F IH]; [destruct Il|]. destruct Il as [->|Il]; [|auto].
    destruct loc as [q|tt ll|tt uu mm]; cbn in *; [destruct Id|subst tt; exact Id|destruct H as [-> _]; exact Id].
  - intros v u V W Rv Ru. unfold over_cells, bilinear_value. symmetry. apply (total_f2 _ _ _ _ _ FC). intros p c [ds [_ [_ F]]]. apply (total_f2 _ _ _ _ _ F). intros t loc [_ [H _]]. symmetry. apply H; assumption.
  - intros v V Rv. unfold over_cells, linear_value. symmetry. apply (total_f2 _ _ _ _ _ FC). intros p c [ds [_ [_ F]]]. apply (total_f2 _ _ _ _ _ F). intros t loc [_ [_ [H _]]]. symmetry. apply H; assumption.
  - unfold over_cells, constant_value. symmetry. apply (total_f2 _ _ _ _ _ FC). intros p c [ds [_ [_ F]]]. apply (total_f2 _ _ _ _ _ F). intros t loc [_ [_ [_ H]]]. symmetry. exact H.
Qed.
Print Assumptions C82_forms.

(** Kernels of explicit functions, constants and nodal functions are functions in this sense *)
Lemma sizes_one {X D} (fs : list (kmap X D)) : Forall (fun m => map_samples m = 1%nat) fs -> sample_size fs = Ok 1%nat.
Proof.
  unfold sample_size. intros F. assert (G : forall l, Forall (fun m : kmap X D => map_samples m = 1%nat) l -> fold_res size_step l 1%nat = Ok 1%nat); [|apply G; exact F].
  induction l as [|m l IH]; intros H; [reflexivity|]. inversion H as [|? ? H1 H2]; subst. cbn. unfold size_step at 1. rewrite H1. cbn. apply IH. exact H2.
Qed.
Theorem C82_kernel e M sf s bases fs hs F k : Forall2 (map_is e M sf s bases) fs hs -> make_kernel fs DNone (Some F) = Ok k ->
  (forall l l', Forall2 Qeq l l' -> F l == F l') -> kernel_is e M sf s bases k (fun p x => F (map (fun h => h p x) hs)).
Proof.
  intros FM E PF. assert (K1 : Forall keeps fs) by (clear - FM; induction FM as [|m h l l' [H _] FF IH]; constructor; auto).
  assert (K2 : Forall (fun m => map_samples m = 1%nat) fs) by (clear - FM; induction FM as [|m h l l' [_ [H _]] FF IH]; constructor; auto).
  assert (Mk : made fs k) by (split; [exact K1|exists DNone, (Some F); exact E]).
  unfold make_kernel in E. cbn [bind] in E. rewrite (sizes_one fs K2) in E. cbn [bind] in E. injection E as <-. split; [exists fs; exact Mk|]. split; [reflexivity|]. split.
  - intros p x y Exy. apply PF. clear - FM Exy. induction FM as [|m h l l' [_ [_ [H _]]] FF IH]; cbn; constructor; auto.
  - intros p r Hr.
    assert (PP : forall q, Some (r_phi r) = Some q -> Forall (fun z => length (snd z) = length (r_x r)) q).
    { intros q Q. injection Q as <-. destruct Hr as [n [ds [refs [_ [_ [_ [_ [Ex [Et _]]]]]]]]]. destruct (tables_get e bases _ _ _ Et) as [T _]. rewrite Ex, map_length. exact T. }
    destruct (C80_eval fs _ (r_x r) (Some (r_phi r)) (Some (r_dofs r)) Mk PP) as [T1 _]. cbn [k_d k_n k_F] in T1.
    assert (G : exists vs, Forall2 (fun fd v => map_eval (fst fd) (snd fd) (r_x r) (Some (r_phi r)) (Some (r_dofs r)) = Ok v) (combine fs (map (fun _ => @None deriv) fs)) vs /\
       Forall2 (fun v (h : path -> Q -> Q) => forall g, (g < length (r_x r))%nat -> sample_at v g 0 == h p (nth g (r_x r) 0)) vs hs).
    { clear - FM Hr. induction FM as [|m h l l' [_ [_ [_ H]]] FF IH]; [exists []; split; constructor|]. destruct IH as [vs [A1 A2]]. destruct (H p r None Hr) as [v [Ev Hv]].
      exists (v :: vs). split; constructor; assumption. }
    destruct G as [vs [G1 G2]]. destruct (T1 vs G1) as [V [EV [_ HV]]]. exists V. split; [exact EV|]. intros g Hg. rewrite (HV g 0%nat Hg) by lia. apply PF.
    clear - G2 Hg. induction G2 as [|v h l l' H FF IH]; cbn; constructor; auto.
Qed.
Print Assumptions C82_kernel.
Theorem C82_maps e M sf s bases :
  (forall (K : Type) (g : K -> Q -> Q) (p0 : K), (forall x y, x == y -> g p0 x == g p0 y) -> map_is e M sf s bases (explicit_map ([g], [p0])) (fun _ x => g p0 x)) /\
  (forall c, map_is e M sf s bases (constant_map [c]) (fun _ _ => c)).
Proof.
  split.
  - intros K g p0 Pg. split; [apply (proj1 (proj2 C80_maps)); discriminate|]. split; [reflexivity|]. split; [intros p x y; apply Pg|]. intros p r d _. cbn.
    eexists. split; [reflexivity|]. intros i Hi. unfold sample_at. rewrite (nth_map' _ (r_x r) i [] 0) by exact Hi. reflexivity.
  - intros c. split; [apply (proj2 (proj2 C80_maps)); discriminate|]. split; [reflexivity|]. split; [intros; reflexivity|]. intros p r d _. cbn. eexists. split; [reflexivity|]. intros i Hi. unfold constant_eval.
    unfold sample_at. rewrite (nth_map' _ (r_x r) i [] 0) by exact Hi. reflexivity.
Qed.
Print Assumptions C82_maps.
(** a nodal function (basis number i): the finite element function, or the derivative of its
    basis *)
Theorem C82_nodal periodic a b e f sf s dv L B lab bases sl i data v W :
  in_use periodic a b e f sf s dv L B -> array_of (length L) 1 data -> nodal_values L data 0 v -> (i < length bases)%nat ->
  represents e f sf s v W -> (forall p x y, x == y -> W (nth i bases V0) p x == W (nth i bases V0) p y) ->
  map_is e (mkM1 f periodic lab) sf s bases (nodal_map1 e f sf s sl i (mkNodal B data)) (W (nth i bases V0)).
Proof.
  intros U A NV Li Rp PW. assert (NS : n_samples data = 1%nat).
  { destruct A as [Ld Lr]. unfold n_samples. destruct data as [|r0 data0]; [|apply Lr; left; reflexivity]. exfalso. apply (use_ne U). cbn in Ld. apply length_zero_iff_nil. auto. }
  split; [apply (proj1 C80_maps); cbn [nd_data]; rewrite NS; lia|]. split; [exact NS|]. split; [exact PW|].
  intros p r d [n [ds [refs [En [Ln [Ed [R1 [R2 [R3 R4]]]]]]]]]. cbn [m1_cells] in En. destruct (tables_get e bases _ _ _ R3) as [_ TG]. destruct (TG i Li) as [t [Gt Ft]].
  destruct (leaf_dofs U p n En Ln) as [ds' [Ed' [Ld [Hk HD]]]]. rewrite Ed in Ed'. injection Ed' as <-.
  destruct (use_leaf_width U p n En Ln) as [Wd _].
  assert (LR : forall row, In row t -> length row = length ds).
  { intros row I. clear - Ft I Wd R1 Ld. induction Ft as [|x r' xs l H F IH]; [destruct I|]. destruct I as [->|I]; [|apply IH; [intros y Hy; apply R1; right; exact Hy|exact I]].
    destruct (shape_row_ok e (n_data n) (nth i bases V0) x Wd (R1 x (or_introl eq_refl))) as [row' [E1 [E2 _]]]. rewrite H in E1. injection E1 as <-. congruence. }
  destruct (Prop_Nodal.C60_coefficients periodic a b e f sf s dv L B data 1 t ds U A HD LR) as [R [ER [LRR HR]]]. exists R. split.
  - unfold nodal_map1. cbn [map_eval]. rewrite Gt. cbn [bind].
    assert (Q : get i (r_dofs r) = Ok ds).
    { rewrite R4. assert (Z : nth_error (map (fun _ : nat => ds) (seq 0 (length bases))) i = Some ds).
      { rewrite nth_error_map. destruct (nth_error (seq 0 (length bases)) i) eqn:Q; [reflexivity|]. apply nth_error_None in Q. rewrite seq_length in Q. lia. }
      pose proof (get_combine _ 0 i ds Z) as G. rewrite map_length, seq_length in G. cbn [Nat.add] in G.
      replace (map (fun i0 => (i0, ds)) (seq 0 (length bases))) with (combine (seq 0 (length bases)) (map (fun _ : nat => ds) (seq 0 (length bases)))); [exact G|].
      generalize (seq 0 (length bases)) as l. induction l as [|j l IH]; cbn; [reflexivity|]. rewrite IH. reflexivity. }
    rewrite Q. cbn [bind]. exact ER.
  - intros g Hg. rewrite R2, map_length in Hg. pose proof (f2_len _ _ _ Ft) as LT. destruct (nth_error t g) as [row|] eqn:Er; [|apply nth_error_None in Er; lia].
    destruct (nth_error R g) as [rr|] eqn:Err; [|apply nth_error_None in Err; lia]. destruct (HR g row rr Er Err) as [Lrr Hv]. specialize (Hv 0%nat v ltac:(lia) NV).
    unfold sample_at. rewrite (nth_error_nth R g [] Err). destruct rr as [|c [|c' rr]]; cbn in Lrr; try lia. cbn [nth] in Hv. rewrite Hv, R2, (nth_map' _ refs g 0 0) by exact Hg.
    assert (R0 : 0 <= nth g refs 0 <= 1) by (apply R1, nth_In, Hg).
    pose proof (f2_nth' _ _ _ g 0 [] Ft Hg) as Es. cbn beta in Es. rewrite (nth_error_nth t g [] Er) in Es.
    rewrite <- (rep_value U v W p _ _ _ Rp ltac:(exists n; split; [exact En|split; [exact Ln|apply (unit_in _ _ Wd R0)]]) (row_value U v p n ds _ _ row En Ln Ed R0 Es)).
    rewrite (sum_nth row ds v (n_dofs D1 e)); [rewrite sum_fold; reflexivity| |exact Ld]. rewrite <- Ld. apply LR. apply nth_error_In in Er. exact Er.
Qed.
Print Assumptions C82_nodal.
(** every vector has such a function *)
Theorem C82_functions periodic a b e f sf s dv L B v : in_use periodic a b e f sf s dv L B ->
  exists V, represents e f sf s v V /\ forall der p x y, x == y -> V der p x == V der p y.
Proof.
  intros U.
  assert (G : forall p n, fget f p = Some n -> is_leaf_of sf n -> exists c, local_poly e f s v p c).
  { intros p n En Ln. destruct (leaf_dofs U p n En Ln) as [ds [Ed [Ld [Hk _]]]]. destruct (use_leaf_width U p n En Ln) as [Wd _].
    destruct (shapes_row e f V0 p n (fst (n_data n)) En Wd ltac:(lra)) as [row [Er _]].
    destruct (cell_value e f s v V0 p n ds row (fst (n_data n)) En Wd ltac:(lra) Ld Hk Er) as [c [Hc _]]. exists c. exact Hc. }
  (* the coefficients can be computed from the dofs of the cell *)
  set (cof := fun p => match fget f p, cell_dofs1 s p with Some n, Some ds => Some (n, ds) | _, _ => None end).
  set (V := fun der p x => match cof p with Some (n, ds) => sumQ (map (fun k => v (nth k ds 0%nat) * row_entry e (n_data n) der x k) (seq 0 (n_dofs D1 e))) | None => 0 end).
  exists V. split.
  - intros der p x [n [En [Ln X]]]. destruct (leaf_dofs U p n En Ln) as [ds [Ed [Ld [Hk _]]]]. destruct (use_leaf_width U p n En Ln) as [Wd _].
    destruct (shapes_row e f der p n x En Wd X) as [row [Er [Lr Hr]]]. assert (Sq : sub_leaf f sf p) by (exists n; auto).
    eapply (value_in_proper U v v der p _ _ _ (fun d _ => Qeq_refl (v d)) Sq); [|exact (cell_value e f s v der p n ds row x En Wd X Ld Hk Er)].
    unfold V, cof. rewrite En, Ed. rewrite (sum_nth row ds v (n_dofs D1 e) Lr Ld). apply sumQ_map_ext. intros k I. apply in_seq in I. rewrite Hr by lia. ring.
  - intros der p x y E. unfold V. destruct (cof p) as [[n ds]|]; [|reflexivity]. apply sumQ_map_ext. intros k _. unfold row_entry.
    assert (EI : imap_inv (n_data n) x == imap_inv (n_data n) y) by (unfold imap_inv; rewrite E; reflexivity). destruct (cub_proper (cf e k) _ _ EI) as [P1 [P2 P3]]. destruct der; rewrite ?P1, ?P2, ?P3; reflexivity.
Qed.
Print Assumptions C82_functions.

(** ** C81 *)
Lemma store_keys {V} k (v : V) d : NoDup (map fst d) -> NoDup (map fst (store k v d)) /\ forall j, In j (map fst (store k v d)) <-> j = k \/ In j (map fst d).
Proof.
  intros N. unfold store. destruct (lookup k d) as [w|] eqn:E.
  - assert (Q : map fst (map (fun p => if (fst p =? k)%nat then (k, v) else p) d) = map fst d).
    { rewrite map_map. apply map_ext. intros [i y]. cbn. destruct (Nat.eqb_spec i k); [cbn; congruence|reflexivity]. }
    rewrite Q. split; [exact N|]. intros j. split; [auto|]. intros [->|H]; [|exact H]. destruct (in_dec Nat.eq_dec k (map fst d)) as [I|I]; [exact I|]. apply AssembleFacts.lookup_none in I. congruence.
  - apply AssembleFacts.lookup_none in E. rewrite map_app. cbn [map fst]. split.
    + apply (Permutation.Permutation_NoDup (Permutation.Permutation_cons_append (map fst d) k)). constructor; assumption.
    + intros j. rewrite in_app_iff. cbn. intuition congruence.
Qed.
Lemma store_all ds : forall vs (dir : list (nat * Q)), NoDup ds -> length vs = length ds -> NoDup (map fst dir) ->
  let dir' := fold_left store_dof (combine (map Some ds) vs) dir in
  NoDup (map fst dir') /\ (forall d, ~ In d ds -> lookup d dir' = lookup d dir) /\ (forall i d y, nth_error ds i = Some d -> nth_error vs i = Some y -> lookup d dir' = Some y) /\
  forall d, In d (map fst dir') <-> In d ds \/ In d (map fst dir).
Proof.
  induction ds as [|d0 ds IH]; intros [|v0 vs] dir ND LV NK; cbn in LV; try discriminate.
  - cbn. split; [exact NK|]. split; [auto|]. split; [intros [|i] d y E; discriminate|]. intros d. tauto.
  - cbn [map combine fold_left store_dof fst snd]. unfold store_dof at 2. cbn [fst snd]. inversion ND as [|? ? N1 N2]; subst. destruct (store_keys d0 v0 dir NK) as [K1 K2].
    destruct (IH vs (store d0 v0 dir) N2 ltac:(lia) K1) as [A1 [A2 [A3 A4]]]. split; [exact A1|]. split; [|split].
    + intros d Nd. rewrite A2 by (intros I; apply Nd; right; exact I). apply AssembleFacts.lookup_store_other. intros ->. apply Nd. left. reflexivity.
    + intros [|i] d y E1 E2; cbn in E1, E2; [|apply (A3 i d y E1 E2)]. injection E1 as <-. injection E2 as <-. rewrite A2 by exact N1. apply AssembleFacts.lookup_store_same.
    + intros d. rewrite A4, K2. cbn. intuition congruence.
Qed.
Lemma mesh_line a b e f sf s dv L B lab : in_use false a b e f sf s dv L B -> line_mesh a b (mkM1 f false lab).
Proof.
  intros U. pose proof (Dof1DHist.history_mesh _ _ _ _ _ _ (use_dof U)) as [[l Hl] [T _]]. split; [exact (use_f_ne U)|]. split; [exact T|]. exists l. exact Hl.
Qed.
(** add_dirichlet, for all elements and meshes: exactly the dofs at the marked vertices (at the
    ends of the interval, if the conditions are on the boundary) get the prescribed value, all
    other entries of the dictionary are kept *)
Theorem C81_conditions a b e f sf s dv L B lab marker df on_bnd dir :
  in_use false a b e f sf s dv L B -> (forall d, In d L -> has_vertex dv d) -> df <> DSame -> proper_data df -> NoDup (map fst dir) ->
  exists dir', add_dirichlet1 e (mkM1 f false lab) s dv marker df on_bnd sf dir = Ok dir' /\ NoDup (map fst dir') /\
    (forall d z, conditioned a b e f sf s lab marker on_bnd d z -> exists y, lookup d dir' = Some y /\ prescribed df z y) /\
    (forall d, (forall z, ~ conditioned a b e f sf s lab marker on_bnd d z) -> lookup d dir' = lookup d dir) /\
    (forall d, In d (map fst dir') <-> (exists z, conditioned a b e f sf s lab marker on_bnd d z) \/ In d (map fst dir)).
Proof.
  intros U HV NS PD NK. unfold add_dirichlet1, dirichlet_dofs1.
  destruct (Prop_RegionDof1.C74_region a b (mkM1 f false lab) e s EVertex marker false on_bnd sf (mesh_line _ _ _ _ _ _ _ _ _ lab U) (iu_rooted _ _ _ _ _ _ _ _ _ _ U) (fun _ => eq_refl)) as [ds [ED [ND HD]]].
  { intros p Hp. apply (use_filled U p (leaf_sub p Hp)). }
  rewrite ED. cbn [bind].
  assert (CD : forall d, In d ds <-> exists z, conditioned a b e f sf s lab marker on_bnd d z).
  { intros d. rewrite HD. split.
    - intros [x [p [k [Kx [[Lp [Px Ax]] [Lx [[y [Py Ey]] Dk]]]]]]]. destruct x as [v|]; [|discriminate]. cbn in *. exists y, p, k. split; [exact Lp|]. split; [exact Dk|]. split; [exact Py|].
      split; [destruct Px as [n [En Hn]]; exists n; split; [exact En|destruct Hn; [left|right]; lra]|]. split; [intros O; specialize (Ax O); destruct Ax; [left|right]; lra|].
      intros g Eg. rewrite (Qred_complete _ _ Ey). apply Lx. exact Eg.
    - intros [z [p [k [Lp [Dk [Pz [Ez [Az Lz]]]]]]]]. exists (Vtx1 z), p, k. split; [reflexivity|]. split; [split; [exact Lp|split; [exact Ez|exact Az]]|]. split; [exact Lz|]. split; [exists z; split; [exact Pz|reflexivity]|exact Dk]. }
  assert (DL : forall d, In d ds -> In d L).
  { intros d I. apply CD in I. destruct I as [z [p [k [Lp [Dk _]]]]]. apply (use_L U). exists p, k. auto. }
  assert (VS : exists vs, dir_values dv df (map Some ds) = Ok vs /\ Forall2 (fun d y => forall z, conditioned a b e f sf s lab marker on_bnd d z -> prescribed df z y) ds vs).
  { destruct df as [c|g|]; [| |congruence].
    - exists (map (fun _ => c) ds). cbn. rewrite map_map. split; [reflexivity|]. clear. induction ds; constructor; auto. intros z _. cbn. reflexivity.
    - destruct (vertices_total dv ds (fun d I => HV d (DL d I))) as [xs Ex]. cbn [dir_values]. rewrite Ex. cbn [bind]. exists (map g xs). split; [reflexivity|].
      pose proof (Prop_DofVert.C37_positions _ _ _ _ _ _ _ _ _ _ (use_history U) Ex) as F. clear - F PD U. induction F as [|d x l l' [p [k [Dk Px]]] F IH]; constructor; [|exact IH].
      intros z [q [j [_ [Dj [Pz _]]]]]. cbn. apply PD. destruct (one_place U p k q j d x z Dk Px Dj Pz) as [E|[E _]]; [exact E|discriminate]. }
  destruct VS as [vs [EV FV]]. rewrite EV. cbn [bind]. eexists. split; [reflexivity|]. pose proof (f2_len _ _ _ FV) as LV.
  destruct (store_all ds vs dir ND (eq_sym LV) NK) as [S1 [S2 [S3 S4]]]. split; [exact S1|]. split; [|split].
  - intros d z C. assert (I : In d ds) by (apply CD; exists z; exact C). apply In_nth_error in I. destruct I as [i Ei]. destruct (f2_nth _ _ _ i d FV Ei) as [y [Ey Hy]].
    exists y. split; [exact (S3 i d y Ei Ey)|apply Hy; exact C].
  - intros d N. apply S2. intros I. apply CD in I. destruct I as [z C]. exact (N z C).
  - intros d. rewrite S4, CD. reflexivity.
Qed.
Print Assumptions C81_conditions.
(** a nodal function with the dofs of the trial functions is not accepted, and there are no
    boundary conditions on periodic meshes *)
Theorem C81_same_refuted e M s dv marker on_bnd sf dir ds : dirichlet_dofs1 e M s marker on_bnd sf = Ok ds ->
  add_dirichlet1 e M s dv marker DSame on_bnd sf dir = Err AttributeError.
Proof. intros E. unfold add_dirichlet1. rewrite E. reflexivity. Qed.
Print Assumptions C81_same_refuted.
Theorem C81_periodic a b e f sf s dv L B lab marker df dir : in_use true a b e f sf s dv L B ->
  add_dirichlet1 e (mkM1 f true lab) s dv marker df true sf dir = Err TypeError.
Proof.
  intros U. destruct (iu_hist _ _ _ _ _ _ _ _ _ _ U) as [s0 [v0 [H E]]]. destruct (DofVertHist.vertex_dof _ _ _ _ _ _ _ _ H) as [H0 _].
  unfold distribute_dofs in E. cbn [fst snd] in E. destruct (distribute true e f sf s0) as [s1|] eqn:E1; [|discriminate]. cbn [bind] in E.
  destruct (set_dof_vertices e f sf s1 v0) as [v1|]; [|discriminate]. cbn [bind] in E. injection E as <- <-.
  destruct (Prop_RegionDof1.C74_distributed true a b e f s0 sf s1 lab marker H0 (iu_rooted _ _ _ _ _ _ _ _ _ _ U) (use_f_ne U) E1) as [_ P].
  unfold add_dirichlet1. rewrite (P eq_refl). reflexivity.
Qed.
Print Assumptions C81_periodic.

(** ** C83 *)
(** the value of a finite element function at an end of a leaf is the value at a dof *)
Lemma end_node e : e <> DQ0 -> exists r0 r1, nth_error (reference_nodes1 e) 0 = Some r0 /\ nth_error (reference_nodes1 e) 1 = Some r1 /\ r0 == 0 /\ r1 == 1.
Proof. intros N. apply nodes_ends. destruct e; try discriminate. congruence. Qed.
Lemma end_dof periodic a b e f sf s dv L B (U : in_use periodic a b e f sf s dv L B) p x : e <> DQ0 -> sub_leaf f sf p -> end_of f p x ->
  exists k d z, dof_at s p k d /\ position1 e f p k z /\ z == x.
Proof.
  intros N Lp [n [En Hx]]. destruct (end_node e N) as [r0 [r1 [E0 [E1 [Q0 Q1]]]]].
  assert (G : forall k r y, nth_error (reference_nodes1 e) k = Some r -> imap (n_data n) r == y -> x == y -> exists k d z, dof_at s p k d /\ position1 e f p k z /\ z == x).
  { intros k r y Er Ey Exy. assert (Lk : (k < n_dofs D1 e)%nat) by (rewrite <- nodes_len; apply nth_error_Some; congruence). destruct (use_slot U p k Lp Lk) as [d [Dk _]].
    exists k, d, (imap (n_data n) r). split; [exact Dk|]. split; [exists n, r; auto|]. rewrite Ey, Exy. reflexivity. }
  destruct Hx as [Hx|Hx]; [apply (G 0%nat r0 _ E0 ltac:(unfold imap; rewrite Q0; ring) Hx)|apply (G 1%nat r1 (snd (n_data n)) E1); [unfold imap; rewrite Q1; ring|exact Hx]].
Qed.
Lemma value_at_node periodic a b e f sf s dv L B (U : in_use periodic a b e f sf s dv L B) v V p k d z : represents e f sf s v V -> sub_leaf f sf p -> dof_at s p k d -> position1 e f p k z -> V V0 p z == v d.
Proof.
  intros Rp Lp Dk Pz. assert (LA : leaf_around f sf z p).
  { destruct Lp as [n [En Ln]]. exists n. split; [exact En|]. split; [exact Ln|]. destruct (use_leaf_width U p n En Ln) as [W _]. destruct Pz as [n' [r [En' [Er ->]]]]. rewrite En in En'. injection En' as <-.
    destruct (Prop_Shape.C31_lagrange_1d e) as [_ LG]. destruct (LG k r Er) as [Ur _]. unfold imap. split; nra. }
  destruct (Rp V0 p z LA) as [c [[_ Hc] Vc]]. cbn in Vc. rewrite Vc. apply (Hc k d z Dk Pz).
Qed.
Lemma around_end periodic a b e f sf s dv L B (U : in_use periodic a b e f sf s dv L B) p x : leaf_around f sf x p -> x == a \/ x == b -> end_of f p x.
Proof.
  intros [n [En [Ln X]]] H. exists n. split; [exact En|]. destruct (use_leaf_width U p n En Ln) as [W [A1 B1]]. destruct H; [left|right]; lra.
Qed.

(** From the mesh to the solution: a problem with Dirichlet conditions at the (marked) ends of
    the interval.  What solve returns are the nodal values of a finite element function with the
    prescribed values at these ends that satisfies a(v,u) = l(v), with the forms of C82, for all
    finite element functions v that vanish there.  The dofs of the submesh are numbered
    0..n-1. *)
Theorem C83_solution a b e f sf s dv n B lab bases rule terms ps marker df dir solver order fuel keep cells af ar u :
  in_use false a b e f sf s dv (seq 0 n) B -> (forall d, (d < n)%nat -> has_vertex dv d) -> e <> DQ0 ->
  rule_ok rule -> Forall (term_ok e (mkM1 f false lab) sf s bases) terms -> (forall p, In p ps -> sub_leaf f sf p) ->
  In 1%nat (map (fun t => form_dim (fst t)) terms) -> In 2%nat (map (fun t => form_dim (fst t)) terms) ->
  exact_spsolve solver -> lists_sets order -> canonical order -> df <> DSame -> proper_data df ->
  add_dirichlet1 e (mkM1 f false lab) s dv marker df true sf [] = Ok dir ->
  problem_cells e (mkM1 f false lab) s bases rule (map fst terms) ps = Ok cells ->
  assemble order [] dir fuel keep cells (init_forms (map (fun t => form_dim (fst t)) terms)) = Ok (af, ar) ->
  solve solver (seq 0 n) [] dir ar = Ok u ->
  length u = n /\ forall W, represents e f sf s (fun d => nth d u 0) W ->
    (forall p x, leaf_around f sf x p -> marked_end a b lab marker x -> prescribed df x (W V0 p x)) /\
    (forall v V, represents e f sf s v V -> (forall p x, leaf_around f sf x p -> marked_end a b lab marker x -> V V0 p x == 0) ->
       bilinear_value (mkM1 f false lab) rule bases terms ps V W == linear_value (mkM1 f false lab) rule bases terms ps V).
Proof.
  intros U HV N0 RO TK PS I1 I2 SV LS CO NS PD EA EP EM ES.
  assert (HV' : forall d, In d (seq 0 n) -> has_vertex dv d) by (intros d I; apply in_seq in I; apply HV; lia).
  destruct (C81_conditions a b e f sf s dv (seq 0 n) B lab marker df true [] U HV' NS PD (NoDup_nil _)) as [dir' [E1 [ND [C1 [_ C3]]]]].
  assert (dir' = dir) by congruence. subst dir'.
  destruct (C82_forms false a b e f sf s dv (seq 0 n) B lab bases rule terms ps U RO TK PS) as [cells' [E2 [P1 [P2 [P3 [P4 [P5 _]]]]]]]. assert (cells' = cells) by congruence. subst cells'.
  assert (Hn : (0 < n)%nat) by (destruct n; [exfalso; apply (use_ne U); reflexivity|lia]).
  assert (WP : well_posed n cells [] dir).
  { split; [intros d Hd; apply P3 in Hd; apply in_seq in Hd; lia|]. split; [intros h []|]. split; [|split; [constructor|exact ND]].
    intros [d y] I. split; [|intros []]. cbn. apply (in_map fst) in I. cbn in I. apply C3 in I. destruct I as [[z [p [k [Lp [Dk _]]]]]|[]].
    assert (Q : In d (seq 0 n)) by (apply (use_L U); exists p, k; auto). apply in_seq in Q. lia. }
  destruct (Prop_Assemble.C44_solution_partial solver order n _ cells [] dir fuel keep af ar u SV LS CO P1 I1 I2 P2 Hn WP EM ES) as [Lu [T1 T2]].
  split; [exact Lu|]. intros W RW. split.
  - intros p x LA [Hx Lx]. assert (Lp : sub_leaf f sf p) by (destruct LA as [m [Em [Lm _]]]; exists m; auto). pose proof (around_end _ _ _ _ _ _ _ _ _ _ U p x LA Hx) as En.
    destruct (end_dof _ _ _ _ _ _ _ _ _ _ U p x N0 Lp En) as [k [d [z [Dk [Pz Ez]]]]].
    assert (CC : conditioned a b e f sf s lab marker true d z).
    { exists p, k. split; [exact Lp|]. split; [exact Dk|]. split; [exact Pz|]. split; [destruct En as [m [Em Hm]]; exists m; split; [exact Em|destruct Hm; [left|right]; lra]|].
      split; [intros _; destruct Hx; [left|right]; lra|]. intros g Eg. rewrite (Qred_complete _ _ Ez). apply Lx. exact Eg. }
    destruct (C1 d z CC) as [y [El Py]]. apply AssembleFacts.lookup_in in El.
    assert (Q : nth d u 0 == y).
    { assert (Z := T1 (mkC d [] y)). unfold fulfils in Z. cbn in Z. rewrite Z; [ring|]. unfold constraints. cbn. apply in_map_iff. exists (d, y). auto. }
    assert (Q2 : W V0 p x == nth d u 0).
    { rewrite (rep_proper U _ W p x z V0 RW LA (Qeq_sym _ _ Ez)). apply (value_at_node _ _ _ _ _ _ _ _ _ _ U (fun d => nth d u 0) W p k d z RW Lp Dk Pz). }
    destruct df as [c|g|]; cbn in Py |- *; [rewrite Q2, Q; exact Py| |exact Py]. rewrite Q2, Q, Py. apply PD. exact Ez.
  - intros v V RV HZ. rewrite <- (P4 v (fun d => nth d u 0) V W RV RW), <- (P5 v V RV). apply T2.
    intros c Ic. unfold constraints in Ic. cbn in Ic. apply in_map_iff in Ic. destruct Ic as [[d y] [<- I]]. unfold homogeneous. cbn. apply (in_map fst) in I. cbn in I. apply C3 in I.
    destruct I as [[z [p [k [Lp [Dk [Pz [Ez [Az Lz]]]]]]]]|[]].
    assert (LA : leaf_around f sf z p) by (destruct Lp as [m [Em Lm]]; exists m; split; [exact Em|split; [exact Lm|]]; destruct (use_leaf_width U p m Em Lm) as [Wd _]; destruct Ez as [m' [Em' Ez]]; rewrite Em in Em'; injection Em' as <-; destruct Ez; split; lra).
    rewrite <- (value_at_node _ _ _ _ _ _ _ _ _ _ U v V p k d z RV Lp Dk Pz). rewrite (HZ p z LA); [ring|]. split; [apply Az; reflexivity|exact Lz].
Qed.
Print Assumptions C83_solution.

(** ** Examples: -u'' = 1 on [0,1] with u(0) = 0, u(1) = 1, quadratic elements on the leaves
    [0,1/8], [1/8,1/4], [1/4,1/2], [1/2,1], Simpson's rule; the ends carry the label 4 *)
From Verif Require Prop_Nodal3.
Section ProblemCases.
Import Prop_Nodal3.
Definition px_s : dofs := fst (nx_sv false Q2).
Definition px_dv : dverts := snd (nx_sv false Q2).
Definition px_k : kernel Q deriv := mkKernel [constant_map [1]] [None] (fun v => nth 0 v 0) 1%nat.
Definition px_a : form1 := mkForm px_k (Some 0%nat) (Some 0%nat) Dx None.
Definition px_l : form1 := mkForm px_k (Some 1%nat) None Dx None.
Definition px_one : path -> Q -> Q := fun _ _ => 1.
Definition px_terms : list term := [(px_a, px_one); (px_l, px_one)].
Definition px_rule : list Q * list Q := ([0; 1 # 2; 1], [1 # 6; 2 # 3; 1 # 6]).
Definition px_lab (x : Q) (g : flag) : bool := (g =? 4)%nat && (Qeq_bool x 0 || Qeq_bool x 1).
Definition px_M : mesh1 := mkM1 nx_f false px_lab.
Definition px_ps : list path := [[0; 0; 0]; [0; 0; 1]; [0; 1]; [1]]%nat.
Definition px_df : dir_data := DMap (fun x => x).
Definition px_cells : list (nat * list local) := match problem_cells Q2 px_M px_s [V1 0; V0] px_rule [px_a; px_l] px_ps with Ok c => c | Err _ => [] end.
Definition px_dir : list (nat * Q) := match add_dirichlet1 Q2 px_M px_s px_dv (Some 4%nat) px_df true None [] with Ok c => c | Err _ => [] end.
Definition px_r : aforms * arrays := match assemble Prop_Assemble.sorted_set [] px_dir 50 true px_cells (init_forms [2; 1]%nat) with Ok r => r | Err _ => (init_forms [], mkR None None None) end.
Definition px_u (x : Q) : Q := x * (1 - x) / 2 + x.
Definition px_cand : table := map (fun x => [Qred (px_u x)]) [1 # 2; 1 # 4; 3 # 4; 1 # 8; 3 # 8; 1 # 16; 3 # 16].
Lemma px_use : in_use false 0 1 Q2 nx_f None px_s px_dv (seq 0 9) (nx_B false Q2).
Proof. apply (nx_use false Q2). vm_compute. reflexivity. Qed.
Lemma px_vertex d : In d (seq 0 9) -> has_vertex px_dv d.
Proof.
  intros I. apply (@use_L _ _ _ _ _ _ _ _ _ _ px_use) in I. destruct I as [p [k [Lp Dk]]].
  destruct (Prop_DofVert.C37_total false 0 1 Q2 nx_f no_dofs [] None) as [s' [v' Es]]; [constructor; apply nx_mesh|exact Logic.I|].
  assert (E : (px_s, px_dv) = (s', v')). { unfold px_s, px_dv. rewrite <- surjective_pairing.
    assert (X : forall r : res (dofs * dverts), r = Ok (s', v') -> match r with Ok st' => st' | Err _ => (no_dofs, []) end = (s', v')) by (intros r ->; reflexivity). exact (X _ Es). }
  pose proof (f_equal fst E) as E1. pose proof (f_equal snd E) as E2. cbn [fst snd] in E1, E2. rewrite E2. rewrite E1 in Dk. refine (Prop_DofVert.C37_first false 0 1 Q2 nx_f None s' v' (nx_mesh false Q2) Logic.I Es p k d (leaf_sub p Lp) Dk).
Qed.
Lemma px_vertex' d : (d < 9)%nat -> has_vertex px_dv d.
Proof. intros H. apply px_vertex. apply in_seq. lia. Qed.
Lemma px_kernel e M sf s bases : kernel_is e M sf s bases px_k px_one.
Proof.
  apply (C82_kernel e M sf s bases [constant_map [1]] [fun _ _ => 1] (fun v => nth 0 v 0) px_k); [constructor; [apply C82_maps|constructor]|reflexivity|].
  intros l l' F. destruct F; [reflexivity|exact H].
Qed.
Lemma px_term M fm : fm_kernel fm = px_k -> fm_dmu fm <> Ds -> (forall i, fm_test fm = Some i -> (i < 2)%nat) -> (forall i, fm_trial fm = Some i -> (i < 2)%nat) ->
  term_ok Q2 M None px_s [V1 0; V0] (fm, px_one).
Proof. intros E N T1 T2. split; [cbn [fst snd]; rewrite E; apply px_kernel|]. split; [exact N|]. split; [exact T1|exact T2]. Qed.
Lemma px_ok : Forall (term_ok Q2 px_M None px_s [V1 0; V0]) px_terms.
Proof.
  unfold px_terms. constructor; [|constructor; [|constructor]]; apply px_term; try reflexivity; try discriminate; intros i E; cbn in E; try discriminate; injection E as <-; lia.
Qed.
Lemma px_rule_ok : rule_ok px_rule.
Proof. split; [reflexivity|]. intros r I. cbn in I. destruct I as [<-|[<-|[<-|[]]]]; split; lra. Qed.
Lemma px_leaves p : In p px_ps -> sub_leaf nx_f None p.
Proof. intros I. cbn in I. destruct I as [<-|[<-|[<-|[<-|[]]]]]; (eexists; split; [vm_compute; reflexivity|]; split; [exact Logic.I|]; intros [|[|i]] k E; try discriminate; destruct i; discriminate). Qed.

Example C81_case : add_dirichlet1 Q2 px_M px_s px_dv (Some 4%nat) px_df true None [] = Ok px_dir /\
  map (fun p => (fst p, Qred (snd p))) px_dir = [(0%nat, 0); (3%nat, 1)] /\
  conditioned 0 1 Q2 nx_f None px_s px_lab (Some 4%nat) true 3 (4 # 4) /\ (forall z, ~ conditioned 0 1 Q2 nx_f None px_s px_lab (Some 4%nat) true 1 z).
Proof.
  destruct (C81_conditions 0 1 Q2 nx_f None px_s px_dv (seq 0 9) _ px_lab (Some 4%nat) px_df true [] px_use px_vertex ltac:(discriminate) (fun x y E => E) (NoDup_nil _)) as [dir' [E [_ [_ [_ C]]]]].
  assert (ED : add_dirichlet1 Q2 px_M px_s px_dv (Some 4%nat) px_df true None [] = Ok px_dir) by (vm_compute; reflexivity).
  split; [exact ED|]. split; [vm_compute; reflexivity|]. assert (dir' = px_dir) by (unfold px_M in ED; congruence). subst dir'. split.
  - exists [1%nat], 1%nat. split; [apply px_leaves; cbn; tauto|]. split; [eexists; split; vm_compute; reflexivity|]. split; [do 2 eexists; split; [vm_compute; reflexivity|split; vm_compute; reflexivity]|].
    split; [eexists; split; [reflexivity|right; vm_compute; reflexivity]|]. split; [intros _; right; reflexivity|]. intros g Eg. injection Eg as <-. reflexivity.
  - intros z H. pose proof (proj2 (C 1%nat) (or_introl (ex_intro _ z H))) as I. clear - I. assert (N : map fst px_dir = [0; 3]%nat) by (vm_compute; reflexivity). rewrite N in I. clear N. cbn in I. destruct I as [I|[I|[]]]; discriminate I.
Qed.
Example C82_case : problem_cells Q2 px_M px_s [V1 0; V0] px_rule (map fst px_terms) px_ps = Ok px_cells /\ length px_cells = 4%nat /\
  exists V W, represents Q2 nx_f None px_s (fun d => inject_Z (Z.of_nat d)) V /\ represents Q2 nx_f None px_s (fun _ => 1) W /\
    over_cells (linear_local (fun _ => 1)) px_cells == 1 /\ linear_value px_M px_rule [V1 0; V0] px_terms px_ps W == 1.
Proof.
  assert (E : problem_cells Q2 px_M px_s [V1 0; V0] px_rule (map fst px_terms) px_ps = Ok px_cells) by (vm_compute; reflexivity).
  split; [exact E|]. split; [vm_compute; reflexivity|]. destruct (C82_functions _ _ _ _ _ _ _ _ _ _ (fun d => inject_Z (Z.of_nat d)) px_use) as [V [RV _]]. destruct (C82_functions _ _ _ _ _ _ _ _ _ _ (fun _ => 1) px_use) as [W [RW _]].
  exists V, W. split; [exact RV|]. split; [exact RW|].
  destruct (C82_forms false 0 1 Q2 nx_f None px_s px_dv (seq 0 9) _ px_lab [V1 0; V0] px_rule px_terms px_ps px_use px_rule_ok px_ok px_leaves) as [cells [EC [_ [_ [_ [_ [L _]]]]]]].
  assert (cells = px_cells) by (unfold px_M in E; congruence). subst cells. assert (Q : over_cells (linear_local (fun _ => 1)) px_cells == 1) by (vm_compute; reflexivity).
  split; [exact Q|]. rewrite <- (L _ W RW). exact Q.
Qed.
Example C83_case : exists u af ar, assemble Prop_Assemble.sorted_set [] px_dir 50 true px_cells (init_forms (map (fun t => form_dim (fst t)) px_terms)) = Ok (af, ar) /\
  solve (Prop_Assemble.check px_cand) (seq 0 9) [] px_dir ar = Ok u /\
  map Qred u = map (fun x => Qred (px_u x)) [0; 1 # 2; 1 # 4; 1; 3 # 4; 1 # 8; 3 # 8; 1 # 16; 3 # 16] /\
  exists W, represents Q2 nx_f None px_s (fun d => nth d u 0) W /\ (forall p, leaf_around nx_f None 1 p -> W V0 p 1 == 1).
Proof.
  assert (G : exists u af ar, assemble Prop_Assemble.sorted_set [] px_dir 50 true px_cells (init_forms (map (fun t => form_dim (fst t)) px_terms)) = Ok (af, ar) /\
    solve (Prop_Assemble.check px_cand) (seq 0 9) [] px_dir ar = Ok u /\ map Qred u = map (fun x => Qred (px_u x)) [0; 1 # 2; 1 # 4; 1; 3 # 4; 1 # 8; 3 # 8; 1 # 16; 3 # 16]).
  { do 3 eexists. split; [vm_compute; reflexivity|]. split; vm_compute; reflexivity. }
  destruct G as [u [af [ar [E1 [E2 E3]]]]]. exists u, af, ar. split; [exact E1|]. split; [exact E2|]. split; [exact E3|].
  destruct (C82_functions _ _ _ _ _ _ _ _ _ _ (fun d => nth d u 0) px_use) as [W [RW _]]. exists W. split; [exact RW|]. intros p LA.
  destruct (C83_solution 0 1 Q2 nx_f None px_s px_dv 9 _ px_lab [V1 0; V0] px_rule px_terms px_ps (Some 4%nat) px_df px_dir (Prop_Assemble.check px_cand) Prop_Assemble.sorted_set 50 true px_cells af ar u
    px_use px_vertex' ltac:(discriminate) px_rule_ok px_ok px_leaves ltac:(cbn; tauto) ltac:(cbn; tauto)
    (Prop_Assemble.check_exact _) Prop_Assemble.sorted_lists Prop_Assemble.sorted_canonical ltac:(discriminate) (fun x y E => E)
    (proj1 C81_case) (proj1 C82_case) E1 E2) as [_ H].
  destruct (H W RW) as [B _]. refine (B p 1 LA _). split; [right; reflexivity|]. intros g Eg. injection Eg as <-. reflexivity.
Qed.
End ProblemCases.

(** A vertex between two cells counts twice in a form over the vertices: the form
    l(v) = v(1/4) of the label 5, on the vertex 1/4 only, is 2 v(1/4) *)
Definition py_lab (x : Q) (g : flag) : bool := (g =? 5)%nat && Qeq_bool x (1 # 4).
Definition py_terms : list term := [(mkForm px_k (Some 1%nat) None Dv (Some 5%nat), px_one)].
Theorem C82_vertex_twice_refuted v V : represents Q2 Prop_Nodal3.nx_f None px_s v V -> (forall der p x y, x == y -> V der p x == V der p y) ->
  Forall (term_ok Q2 (mkM1 Prop_Nodal3.nx_f false py_lab) None px_s [V1 0; V0]) py_terms /\
  exists cells, problem_cells Q2 (mkM1 Prop_Nodal3.nx_f false py_lab) px_s [V1 0; V0] px_rule (map fst py_terms) px_ps = Ok cells /\
    over_cells (linear_local v) cells == V V0 [0; 1]%nat (1 # 4) + V V0 [0; 1]%nat (1 # 4).
Proof.
  intros R PV. assert (TK : Forall (term_ok Q2 (mkM1 Prop_Nodal3.nx_f false py_lab) None px_s [V1 0; V0]) py_terms).
  { unfold py_terms. constructor; [|constructor]. apply px_term; try reflexivity; try discriminate; intros i E; cbn in E; try discriminate; injection E as <-; lia. }
  split; [exact TK|].
  destruct (C82_forms false 0 1 Q2 Prop_Nodal3.nx_f None px_s px_dv (seq 0 9) _ py_lab [V1 0; V0] px_rule py_terms px_ps px_use px_rule_ok TK px_leaves) as [cells [EC [_ [_ [_ [_ [L _]]]]]]].
  exists cells. split; [exact EC|]. rewrite (L v V R).
  assert (P1 : exists z, z == 1 # 4 /\ V V0 [0; 0; 1]%nat z == v 2%nat).
  { eexists. split; [|apply (value_at_node _ _ _ _ _ _ _ _ _ _ px_use v V [0; 0; 1]%nat 1%nat 2%nat _ R); [apply px_leaves; cbn; tauto|eexists; split; vm_compute; reflexivity|do 2 eexists; split; [vm_compute; reflexivity|split; [vm_compute; reflexivity|reflexivity]]]]. reflexivity. }
  assert (P2 : exists z, z == 1 # 4 /\ V V0 [0; 1]%nat z == v 2%nat).
  { eexists. split; [|apply (value_at_node _ _ _ _ _ _ _ _ _ _ px_use v V [0; 1]%nat 0%nat 2%nat _ R); [apply px_leaves; cbn; tauto|eexists; split; vm_compute; reflexivity|do 2 eexists; split; [vm_compute; reflexivity|split; [vm_compute; reflexivity|reflexivity]]]]. reflexivity. }
  destruct P1 as [z1 [Z1 P1]]. destruct P2 as [z2 [Z2 P2]]. 
  assert (LV : linear_value (mkM1 Prop_Nodal3.nx_f false py_lab) px_rule [V1 0; V0] py_terms px_ps V == V V0 [0; 0; 1]%nat (1 # 4) + V V0 [0; 1]%nat (1 # 4)).
  { clear - PV. set (M := mkM1 Prop_Nodal3.nx_f false py_lab).
    assert (I : forall p l r b1 b2, (exists n, fget Prop_Nodal3.nx_f p = Some n /\ n_data n = (l, r)) -> py_lab (Qred l) 5%nat = b1 -> py_lab (Qred r) 5%nat = b2 ->
      forall h, integral M px_rule Dv (Some 5%nat) p h = (if b1 then h l else 0) + (if b2 then h r else 0)).
    { intros p l r b1 b2 [n [En Dn]] E1 E2 h. unfold integral. cbn [M m1_cells m1_lab]. rewrite En, Dn. cbn [has]. rewrite E1, E2. reflexivity. }
    assert (I1 : forall h, integral M px_rule Dv (Some 5%nat) [0; 0; 0]%nat h == 0) by (intros h; erewrite I; [|eexists; split; vm_compute; reflexivity|vm_compute; reflexivity|vm_compute; reflexivity]; reflexivity).
    assert (I2 : exists x, x == 1 # 4 /\ forall h, integral M px_rule Dv (Some 5%nat) [0; 0; 1]%nat h == h x).
    { eexists. split; [|intros h; erewrite I; [|eexists; split; vm_compute; reflexivity|vm_compute; reflexivity|vm_compute; reflexivity]; rewrite Qplus_0_l; reflexivity]. reflexivity. }
    assert (I3 : exists x, x == 1 # 4 /\ forall h, integral M px_rule Dv (Some 5%nat) [0; 1]%nat h == h x).
    { eexists. split; [|intros h; erewrite I; [|eexists; split; vm_compute; reflexivity|vm_compute; reflexivity|vm_compute; reflexivity]; rewrite Qplus_0_r; reflexivity]. reflexivity. }
    assert (I4 : forall h, integral M px_rule Dv (Some 5%nat) [1]%nat h == 0) by (intros h; erewrite I; [|eexists; split; vm_compute; reflexivity|vm_compute; reflexivity|vm_compute; reflexivity]; reflexivity).
    destruct I2 as [x2 [X2 I2]]. destruct I3 as [x3 [X3 I3]]. clear I.
    unfold linear_value, total, py_terms, px_ps. cbn [map fold_right qsum fst snd fm_test fm_trial fm_dmu fm_flag]. rewrite I1, I2, I3, I4. unfold der_of, px_one. cbn [nth].
    rewrite (PV V0 [0; 0; 1]%nat x2 (1 # 4) X2), (PV V0 [0; 1]%nat x3 (1 # 4) X3). ring. }
  rewrite LV, (PV V0 [0; 0; 1]%nat (1 # 4) z1 (Qeq_sym _ _ Z1)), (PV V0 [0; 1]%nat (1 # 4) z2 (Qeq_sym _ _ Z2)), P1, P2. reflexivity.
Qed.
Print Assumptions C82_vertex_twice_refuted.
