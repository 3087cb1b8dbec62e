(** * C43, C44: assembly and solution (Assembler) *)
From Coq Require Import List Arith Bool QArith Lia.
From Verif Require Import Tree TreeFacts Geom Dof Solver SpecSolver SolverFacts SolverRun Basis Assemble SpecAssemble AssembleFacts AssembleRun AssembleCells AssembleArr AssembleMain.
Import ListNotations.
Open Scope Q_scope.

(** ** C43: the assembled arrays are the constrained forms *)
Theorem C43_assembled_partial : forall order hng dir fuel keep dims cells af ar,
  lists_sets order -> problem dims cells -> galerkin cells ->
  assemble order hng dir fuel keep cells (init_forms dims) = Ok (af, ar) ->
  (r0 ar = None <-> ~ In 0%nat dims) /\ (r1 ar = None <-> ~ In 1%nat dims) /\ (r2 ar = None <-> ~ In 2%nat dims) /\
  (forall R, r0 ar = Some R -> c_val R == over_cells constant_local cells) /\
  (forall R, r1 ar = Some R -> vector_of cells hng dir R /\
     forall d, cell_dof cells d -> unconstrained hng dir d -> In d (v_dofs R)) /\
  (forall R, r2 ar = Some R -> matrix_of cells hng dir R /\
     forall d, cell_dof cells d -> unconstrained hng dir d -> In d (m_rows R) /\ In d (m_cols R)).
Proof.
  intros order hng dir fuel keep dims cells af ar O P Ga E.
  destruct (assembled order hng dir fuel keep dims cells af ar O P Ga E) as [H0 [H1 [H2 [K0 [K1 K2]]]]].
  split; [exact K0|]. split; [exact K1|]. split; [exact K2|]. split; [exact H0|]. split.
  - intros R Q. destruct (H1 R Q) as [V [l [El S]]]. split; [exact V|]. intros d Cd Ud. rewrite El. apply O. apply S. exists d.
    split; [|apply unconstrained_free; exact Ud]. apply (in1_cell dims cells P Ga); [|exact Cd].
    destruct (in_dec Nat.eq_dec 1%nat dims) as [I|I]; [exact I|]. apply K1 in I. congruence.
  - intros R Q. destruct (H2 R Q) as [V [l [l' [El [El' [S [S' _]]]]]]]. split; [exact V|]. intros d Cd Ud.
    assert (I2 : In 2%nat dims) by (destruct (in_dec Nat.eq_dec 2%nat dims) as [I|I]; [exact I|]; apply K2 in I; congruence).
    assert (X : exists d0, in2 cells d0 d0 /\ free_of hng dir d0 d) by (exists d; split; [apply (cell_in2 dims cells P Ga I2); exact Cd|apply unconstrained_free; exact Ud]).
    rewrite El, El'. split; apply O; [apply S|apply S']; exact X.
Qed.
Print Assumptions C43_assembled_partial.

(** The loop over the cells ends, whatever the order of the supports, and no
    exception is raised *)
Theorem C43_total : forall order hng dir keep dims cells,
  lists_sets order -> problem dims cells -> galerkin cells -> acyclic hng ->
  Forall (fun k => (k < 3)%nat) dims -> (exists d, cell_dof cells d /\ unconstrained hng dir d) ->
  exists N, forall fuel, (N <= fuel)%nat -> exists r, assemble order hng dir fuel keep cells (init_forms dims) = Ok r.
Proof. exact assemble_ends. Qed.
Print Assumptions C43_total.

(** Without hanging nodes: the entries of the arrays *)
Lemma bilinear_plus : forall v x y f, bilinear_local v (fun i => x i + y i) f == bilinear_local v x f + bilinear_local v y f.
Proof.
  intros v x y [c|t l|t u M]; cbn; try ring. rewrite <- sum_plus. apply sum_ext. intros i _. rewrite <- sum_plus. apply sum_ext. intros j _. ring.
Qed.
Lemma over_plus : forall g h k cells, (forall f, g f == h f + k f) -> over_cells g cells == over_cells h cells + over_cells k cells.
Proof. intros g h k cells E. unfold over_cells. rewrite <- total_plus. apply total_ext. intros c _. rewrite <- total_plus. apply total_ext. intros f _. apply E. Qed.
Lemma unit_eq : forall k, unit_vec k k = 1.
Proof. intros. unfold unit_vec. rewrite Nat.eqb_refl. reflexivity. Qed.
Lemma unit_nth : forall l i j, NoDup l -> (i < length l)%nat -> (j < length l)%nat -> unit_vec (nth i l 0%nat) (nth j l 0%nat) = if (i =? j)%nat then 1 else 0.
Proof.
  intros l i j N Hi Hj. unfold unit_vec. destruct (Nat.eqb_spec i j) as [->|D]; [rewrite Nat.eqb_refl; reflexivity|].
  destruct (Nat.eqb_spec (nth j l 0%nat) (nth i l 0%nat)) as [E|_]; [|reflexivity]. exfalso. apply D.
  symmetry. exact (proj1 (NoDup_nth l 0%nat) N j i Hj Hi E).
Qed.
Lemma unit_test : forall dir r, ~ In r (map fst dir) -> test_space [] dir (unit_vec r).
Proof.
  intros dir r N c I. unfold constraints in I. cbn in I. apply in_map_iff in I. destruct I as [d [<- I]]. unfold homogeneous. cbn. unfold unit_vec.
  destruct (Nat.eqb_spec (fst d) r) as [E|_]; [|reflexivity]. exfalso. apply N. rewrite <- E. apply in_map. exact I.
Qed.
Lemma dir_trial : forall dir y, NoDup (map fst dir) -> (forall d, In d (map fst dir) -> y d == 0) -> trial_space [] dir (fun i => dirichlet_values dir i + y i).
Proof.
  intros dir y N Y c I. unfold constraints in I. cbn in I. apply in_map_iff in I. destruct I as [[d g] [<- I]]. unfold fulfils. cbn.
  unfold dirichlet_values. rewrite (lookup_nodup Q d dir g N I), (Y d); [ring|]. apply (in_map fst) in I. exact I.
Qed.
Lemma dir_free : forall dir d, ~ In d (map fst dir) -> dirichlet_values dir d = 0.
Proof. intros dir d N. unfold dirichlet_values. apply lookup_none in N. rewrite N. reflexivity. Qed.
Theorem C43_entries : forall order dir fuel keep dims cells af ar,
  lists_sets order -> problem dims cells -> galerkin cells -> NoDup (map fst dir) ->
  assemble order [] dir fuel keep cells (init_forms dims) = Ok (af, ar) ->
  (forall R i, r1 ar = Some R -> (i < length (v_dofs R))%nat ->
     nth i (v_vec R) 0 == over_cells (linear_local (unit_vec (nth i (v_dofs R) 0%nat))) cells) /\
  (forall R i j, r2 ar = Some R -> (i < length (m_rows R))%nat -> (j < length (m_cols R))%nat ->
     entry (m_mat R) i j == over_cells (bilinear_local (unit_vec (nth i (m_rows R) 0%nat)) (unit_vec (nth j (m_cols R) 0%nat))) cells) /\
  (forall R x0 i, r2 ar = Some R -> m_x0 R = Some x0 -> (i < length (m_rows R))%nat ->
     nth i x0 0 == over_cells (bilinear_local (unit_vec (nth i (m_rows R) 0%nat)) (dirichlet_values dir)) cells).
Proof.
  intros order dir fuel keep dims cells af ar O P Ga N E.
  destruct (assembled order [] dir fuel keep dims cells af ar O P Ga E) as [_ [H1 [H2 _]]].
  assert (Free : forall l i, Forall (unconstrained [] dir) l -> (i < length l)%nat -> ~ In (nth i l 0%nat) (map fst dir)).
  { intros l i F Hi. rewrite Forall_forall in F. apply (F (nth i l 0%nat)). apply nth_In. exact Hi. }
  assert (Row : forall l (f : nat -> Q) i, NoDup l -> (i < length l)%nat -> sum (length l) (fun k => unit_vec (nth i l 0%nat) (nth k l 0%nat) * f k) == f i).
  { intros l f i Nd Hi. rewrite (sum_one (length l) i); [rewrite unit_eq; ring|exact Hi|]. intros k Hk D. rewrite (unit_nth l i k Nd Hi Hk).
    destruct (Nat.eqb_spec i k); [congruence|ring]. }
  split.
  - intros R i Q Hi. destruct (H1 R Q) as [[Nd [F [L S]]] _]. rewrite <- (S _ (unit_test dir _ (Free _ i F Hi))). symmetry. apply (Row (v_dofs R) (fun k => nth k (v_vec R) 0) i Nd Hi).
  - assert (X : forall R i y, r2 ar = Some R -> (i < length (m_rows R))%nat -> (forall d, In d (map fst dir) -> y d == 0) ->
        sum (length (m_cols R)) (fun j => entry (m_mat R) i j * y (nth j (m_cols R) 0%nat)) + x0_at R i ==
        over_cells (bilinear_local (unit_vec (nth i (m_rows R) 0%nat)) (dirichlet_values dir)) cells + over_cells (bilinear_local (unit_vec (nth i (m_rows R) 0%nat)) y) cells).
    { intros R i y Q Hi Y. destruct (H2 R Q) as [[Nr [Nc [Fr [Fc [Sh [_ S]]]]]] _].
      assert (Z := S _ _ (unit_test dir _ (Free _ i Fr Hi)) (dir_trial dir y N Y)).
      rewrite (over_plus _ _ _ cells (bilinear_plus _ (dirichlet_values dir) y)) in Z. rewrite <- Z. apply Qplus_comp.
      - transitivity (sum (length (m_rows R)) (fun k => unit_vec (nth i (m_rows R) 0%nat) (nth k (m_rows R) 0%nat) * sum (length (m_cols R)) (fun j => entry (m_mat R) k j * y (nth j (m_cols R) 0%nat)))).
        + symmetry. apply (Row (m_rows R) (fun k => sum (length (m_cols R)) (fun j => entry (m_mat R) k j * y (nth j (m_cols R) 0%nat))) i Nr Hi).
        + apply sum_ext. intros k Hk. rewrite <- sum_scal. apply sum_ext. intros j Hj. rewrite (dir_free dir _ (Free _ j Fc Hj)). ring.
      - symmetry. apply (Row (m_rows R) (fun k => x0_at R k) i Nr Hi). }
    assert (X0 : forall R i, r2 ar = Some R -> (i < length (m_rows R))%nat ->
        x0_at R i == over_cells (bilinear_local (unit_vec (nth i (m_rows R) 0%nat)) (dirichlet_values dir)) cells).
    { intros R i Q Hi. assert (Z := X R i (fun _ => 0) Q Hi (fun _ _ => Qeq_refl 0)).
      assert (Z0 : over_cells (bilinear_local (unit_vec (nth i (m_rows R) 0%nat)) (fun _ => 0)) cells == 0).
      { unfold over_cells. apply total_zero. intros c _. apply total_zero. intros f _. destruct f; cbn; try reflexivity.
        apply sum_zero. intros a _. apply sum_zero. intros b _. ring. }
      rewrite Z0 in Z. rewrite sum_zero in Z by (intros; ring). rewrite Qplus_0_l, Qplus_0_r in Z. exact Z. }
    split.
    + intros R i j Q Hi Hj. destruct (H2 R Q) as [[Nr [Nc [Fr [Fc _]]]] _].
      assert (Z := X R i (unit_vec (nth j (m_cols R) 0%nat)) Q Hi).
      rewrite <- (X0 R i Q Hi) in Z.
      assert (Y : forall d, In d (map fst dir) -> unit_vec (nth j (m_cols R) 0%nat) d == 0).
      { intros d I. unfold unit_vec. destruct (Nat.eqb_spec d (nth j (m_cols R) 0%nat)) as [->|_]; [|reflexivity]. exfalso. exact (Free _ j Fc Hj I). }
      specialize (Z Y). rewrite Qplus_comm in Z. apply Qplus_inj_l in Z. rewrite <- Z.
      transitivity (sum (length (m_cols R)) (fun k => unit_vec (nth j (m_cols R) 0%nat) (nth k (m_cols R) 0%nat) * entry (m_mat R) i k)).
      * symmetry. apply (Row (m_cols R) (fun k => entry (m_mat R) i k) j Nc Hj).
      * apply sum_ext. intros k _. ring.
    + intros R x0 i Q Ex Hi. rewrite <- (X0 R i Q Hi). unfold x0_at. rewrite Ex. reflexivity.
Qed.
Print Assumptions C43_entries.

(** ** C44: solve returns the solution of the discrete problem *)
Theorem C44_solution_partial : forall solver order n dims cells hng dir fuel keep af ar u,
  exact_spsolve solver -> lists_sets order -> canonical order ->
  problem dims cells -> In 1%nat dims -> In 2%nat dims -> galerkin cells -> (0 < n)%nat -> well_posed n cells hng dir ->
  assemble order hng dir fuel keep cells (init_forms dims) = Ok (af, ar) ->
  solve solver (seq 0 n) hng dir ar = Ok u ->
  length u = n /\ galerkin_solution cells hng dir (fun i => nth i u 0).
Proof. exact solution. Qed.
Print Assumptions C44_solution_partial.

(** solve returns a value if the solver does and a Dirichlet dof shares a cell with
    an unconstrained dof *)
Theorem C44_total : forall solver order n dims cells hng dir fuel keep af ar A,
  lists_sets order -> canonical order ->
  problem dims cells -> In 1%nat dims -> In 2%nat dims -> galerkin cells -> (0 < n)%nat -> well_posed n cells hng dir ->
  assemble order hng dir fuel keep cells (init_forms dims) = Ok (af, ar) ->
  (exists c t u M r d, In c cells /\ In (Bilinear t u M) (snd c) /\ In r t /\ In d u /\ unconstrained hng dir r /\ In d (map fst dir)) ->
  r2 ar = Some A -> (forall b, shape (length (m_rows A)) 1 b = true -> solver (m_mat A) 1%nat b <> None) ->
  exists u, solve solver (seq 0 n) hng dir ar = Ok u.
Proof.
  intros solver order n dims cells hng dir fuel keep af ar A O Ca P D1 D2 Ga Hn W E [c [t [u [M [r [d [Ic [If [Ir [Id [Ur Dd]]]]]]]]]]] EA So.
  destruct (assembled order hng dir fuel keep dims cells af ar O P Ga E) as [_ [Hv [Hm [_ [K1 K2]]]]].
  destruct (r1 ar) as [b|] eqn:Eb; [|exfalso; apply (proj1 K1 eq_refl); exact D1].
  destruct (Hv b eq_refl) as [[Nv [Fv [Lv Sv]]] [l1 [El1 S1]]].
  destruct (Hm A EA) as [[Nr [Nc [Fr [Fc [Sh [Lx Sm]]]]]] [l2 [l3 [El2 [El3 [S2 [S3 X0]]]]]]].
  assert (Q1 : forall d, In d l1 <-> In d l2).
  { intros e. rewrite S1, S2. split; intros [d0 [I F]]; exists d0; (split; [|exact F]).
    - apply (cell_in2 dims cells P Ga D2). apply (in1_cell dims cells P Ga D1). exact I.
    - apply (in1_cell dims cells P Ga D1). apply (in2_cell cells Ga d0 d0 I). }
  assert (Q2 : forall d, In d l3 <-> In d l2) by (intros e; rewrite S2, S3; tauto).
  assert (Erv : v_dofs b = m_rows A) by (rewrite El1, El2; apply Ca; exact Q1).
  assert (Erc : m_cols A = m_rows A) by (rewrite El3, El2; apply Ca; exact Q2).
  destruct (m_x0 A) as [x0|] eqn:Ex0.
  2: { exfalso. apply (proj2 X0); [|reflexivity]. exists r, r, d, d. split; [exists c, (Bilinear t u M); rewrite entries2_pos; tauto|].
       split; [apply unconstrained_free; exact Ur|].
       split; [constructor; apply lookup_none; destruct W as [_ [_ [W _]]]; apply in_map_iff in Dd; destruct Dd as [p [<- Ip]]; apply (W p Ip)|].
       intros Z. apply lookup_none in Z. exact (Z Dd). }
  apply (solve_ok solver n cells hng dir ar b A x0 Hn W Eb EA Ex0 Nr).
  - intros e I. rewrite El2 in I. apply (proj1 (proj2 (O l2))) in I. apply S2 in I. destruct I as [d0 [I [R _]]].
    apply (red_cell n cells hng dir d0 e W); [|exact R]. apply W. apply (in2_cell cells Ga d0 d0 I).
  - rewrite Erc. reflexivity.
  - rewrite <- Erv. exact Lv.
  - apply Lx. reflexivity.
  - exact So.
Qed.
Print Assumptions C44_total.

(** Without Dirichlet conditions (a Neumann or Robin problem) solve never returns *)
Theorem C44_no_dirichlet_refuted : forall solver order n dims cells hng fuel keep af ar,
  lists_sets order -> problem dims cells -> In 1%nat dims -> In 2%nat dims -> galerkin cells ->
  assemble order hng [] fuel keep cells (init_forms dims) = Ok (af, ar) ->
  solve solver (seq 0 n) hng [] ar = Err IndexError.
Proof.
  intros solver order n dims cells hng fuel keep af ar O P D1 D2 Ga E.
  destruct (assembled order hng [] fuel keep dims cells af ar O P Ga E) as [_ [Hv [Hm [_ [K1 K2]]]]].
  unfold solve.
  destruct (r1 ar) as [b|] eqn:Eb; [|exfalso; apply (proj1 K1 eq_refl); exact D1].
  destruct (r2 ar) as [A|] eqn:EA; [|exfalso; apply (proj1 K2 eq_refl); exact D2].
  destruct (Hm A eq_refl) as [_ [l2 [l3 [_ [_ [_ [_ X0]]]]]]].
  destruct (m_x0 A); [|reflexivity]. exfalso. destruct (proj1 X0) as [r [ra [ca [c [_ [_ [_ N]]]]]]]; [discriminate|]. apply N. reflexivity.
Qed.
Print Assumptions C44_no_dirichlet_refuted.

(** ** Examples *)
(** sorted(set(l)) *)
Definition sorted_set (l : list nat) : list nat := filter (fun d => existsb (Nat.eqb d) l) (seq 0 (S (list_max l))).
Lemma sorted_mem : forall l d, In d (sorted_set l) <-> In d l.
Proof.
  intros l d. unfold sorted_set. rewrite filter_In, existsb_dims, in_seq. split; [tauto|]. intros I. split; [|exact I].
  assert (X := proj1 (list_max_le l (list_max l)) (le_n _)). rewrite Forall_forall in X. specialize (X d I). lia.
Qed.
Lemma max_in : forall l, l <> [] -> In (list_max l) l.
Proof.
  induction l as [|a l IH]; [congruence|]. intros _. destruct l as [|b l]; [left; cbn; lia|].
  change (list_max (a :: b :: l)) with (Nat.max a (list_max (b :: l))).
  destruct (Nat.max_spec a (list_max (b :: l))) as [[_ E]|[_ E]]; rewrite E; [right; apply IH; discriminate|left; reflexivity].
Qed.
Lemma sorted_lists : lists_sets sorted_set.
Proof.
  intros l. split; [apply NoDup_filter, seq_NoDup|]. split; [apply sorted_mem|].
  intros d I. assert (NE : l <> []) by (intros ->; destruct I). assert (M := max_in l NE).
  unfold sorted_set. rewrite seq_S. cbn [plus]. rewrite filter_app. cbn [filter].
  apply existsb_dims in M. rewrite M. rewrite last_last. assert (X := proj1 (list_max_le l (list_max l)) (le_n _)). rewrite Forall_forall in X. apply X. exact I.
Qed.
Lemma sorted_canonical : canonical sorted_set.
Proof.
  intros l l' S. assert (M : list_max l = list_max l').
  { apply Nat.le_antisymm; apply list_max_le; apply Forall_forall; intros d I; apply S in I;
      [assert (X := proj1 (list_max_le l' (list_max l')) (le_n _))|assert (X := proj1 (list_max_le l (list_max l)) (le_n _))];
      rewrite Forall_forall in X; apply X; exact I. }
  unfold sorted_set. rewrite M. apply filter_ext. intros d. 
  destruct (existsb (Nat.eqb d) l) eqn:E1, (existsb (Nat.eqb d) l') eqn:E2; try reflexivity.
  - apply existsb_dims, S, existsb_dims in E1. congruence.
  - apply existsb_dims, S, existsb_dims in E2. congruence.
Qed.
(** A solver that knows one answer *)
Definition check (cand : mat) (A : mat) (m : nat) (b : mat) : option mat :=
  if shape (length A) 1 cand && forallb (fun i => Qeq_bool (mulv (length A) A (column cand 0) i) (entry b i 0)) (seq 0 (length A)) then Some cand else None.
Lemma check_exact : forall cand, exact_spsolve (check cand).
Proof.
  intros cand n A b u SA Sb E. unfold check in E.
  assert (L : length A = n) by (unfold shape in SA; apply andb_prop in SA; destruct SA as [SA _]; apply Nat.eqb_eq in SA; exact SA).
  rewrite L in E. destruct (shape n 1 cand && _) eqn:Q in E; [|discriminate]. injection E as <-.
  apply andb_prop in Q. destruct Q as [S F]. split; [exact S|]. intros i Hi.
  rewrite forallb_forall in F. specialize (F i). rewrite in_seq in F. apply Qeq_bool_iff. apply F. lia.
Qed.

(** -u'' = 1 on three intervals, the dofs numbered 0, 1, 2 and 3, with 4 hanging
    between 1 and 2 *)
Definition stiff : mat := [[1; -1]; [-1; 1]].
Definition ex_cells : list (nat * list local) :=
  [(7%nat, [Linear [0; 1]%nat [1; 1]; Bilinear [0; 1]%nat [0; 1]%nat stiff; Constant 1]);
   (3%nat, [Linear [1; 4]%nat [1; 1]; Bilinear [1; 4]%nat [1; 4]%nat stiff; Constant 2]);
   (5%nat, [Linear [4; 2]%nat [1; 1]; Bilinear [4; 2]%nat [4; 2]%nat stiff; Constant (1 # 2)]);
   (4%nat, [Linear [2; 3]%nat [1; 1]; Bilinear [2; 3]%nat [2; 3]%nat stiff; Constant 0])].
Definition ex_hng : list (nat * list (nat * Q)) := [(4%nat, [(1%nat, 1 # 2); (2%nat, 1 # 2)])].
Definition ex_dir : list (nat * Q) := [(0%nat, 1); (3%nat, 2)].
Lemma ex_problem : problem [1; 2; 0]%nat ex_cells.
Proof. split; [repeat constructor; cbn; intuition congruence|]. repeat constructor. Qed.
Lemma ex_galerkin : galerkin ex_cells.
Proof. repeat (apply Forall_cons; [eexists; repeat constructor|]). apply Forall_nil. Qed.
Lemma ex_acyclic : acyclic ex_hng.
Proof. exists (fun d => if (d =? 4)%nat then 1%nat else 0%nat). intros h p [<-|[]] [<-|[<-|[]]]; cbn; lia. Qed.
Lemma ex_well_posed : well_posed 5 ex_cells ex_hng ex_dir.
Proof.
  split.
  { intros d [c [f [Ic [If Id]]]]. repeat (destruct Ic as [<-|Ic]; [repeat (destruct If as [<-|If]; [cbn in Id; intuition lia|]); destruct If|]). destruct Ic. }
  split; [intros h [<-|[]]; split; [cbn; lia|intros p [<-|[<-|[]]]; cbn; split; [lia|intuition lia|lia|intuition lia]]|].
  split; [intros d [<-|[<-|[]]]; cbn; split; [lia|intuition lia|lia|intuition lia]|].
  split; repeat constructor; cbn; intuition congruence.
Qed.
Definition ex_result : aforms * arrays :=
  match assemble sorted_set ex_hng ex_dir 50 true ex_cells (init_forms [1; 2; 0]%nat) with Ok r => r | Err _ => (init_forms [], mkR None None None) end.
Example ex_assembled : assemble sorted_set ex_hng ex_dir 50 true ex_cells (init_forms [1; 2; 0]%nat) = Ok ex_result /\
  (exists R, r1 (snd ex_result) = Some R /\ v_dofs R = [1; 2]%nat /\ Forall2 Qeq (v_vec R) [3; 3]) /\
  (exists R, r2 (snd ex_result) = Some R /\ m_rows R = [1; 2]%nat /\ m_cols R = [1; 2]%nat /\
     Forall2 (Forall2 Qeq) (m_mat R) [[3 # 2; - (1 # 2)]; [- (1 # 2); 3 # 2]] /\ exists x0, m_x0 R = Some x0 /\ Forall2 Qeq x0 [-1; -2]).
Proof.
  split; [vm_compute; reflexivity|].
  split; [eexists; split; [vm_compute; reflexivity|]; split; [reflexivity|]; repeat constructor; reflexivity|].
  eexists. split; [vm_compute; reflexivity|]. split; [reflexivity|]. split; [reflexivity|]. split; [repeat constructor; reflexivity|].
  eexists. split; [reflexivity|]. repeat constructor; reflexivity.
Qed.
(** 3/2 u1 - 1/2 u2 = 4, - 1/2 u1 + 3/2 u2 = 5 *)
Example ex_solved : exists u, solve (check [[17 # 4]; [19 # 4]]) (seq 0 5) ex_hng ex_dir (snd ex_result) = Ok u /\
  Forall2 Qeq u [1; 17 # 4; 19 # 4; 2; 9 # 2] /\ galerkin_solution ex_cells ex_hng ex_dir (fun i => nth i u 0).
Proof.
  assert (E : exists u, solve (check [[17 # 4]; [19 # 4]]) (seq 0 5) ex_hng ex_dir (snd ex_result) = Ok u /\ Forall2 Qeq u [1; 17 # 4; 19 # 4; 2; 9 # 2]).
  { eexists. split; [vm_compute; reflexivity|]. repeat constructor; reflexivity. }
  destruct E as [u [E V]]. exists u. split; [exact E|]. split; [exact V|].
  assert (Ea := proj1 ex_assembled). destruct ex_result as [af ar].
  apply (C44_solution_partial (check [[17 # 4]; [19 # 4]]) sorted_set 5 [1; 2; 0]%nat ex_cells ex_hng ex_dir 50 true af ar u
    (check_exact _) sorted_lists sorted_canonical ex_problem); try assumption; try (cbn; tauto); try lia.
  - exact ex_galerkin.
  - exact ex_well_posed.
Qed.
Example ex_total : exists d, cell_dof ex_cells d /\ unconstrained ex_hng ex_dir d.
Proof. exists 1%nat. split; [eexists; eexists; split; [left; reflexivity|]; split; [left; reflexivity|cbn; tauto]|]. split; cbn; intuition lia. Qed.

(** A second call of assemble() adds to the aggregate data of the first: on the
    problem of the example the matrix and the vector are doubled, and the constant
    form is tripled if the cellwise data are kept *)
Definition ex_again : res (aforms * arrays) := assemble sorted_set ex_hng ex_dir 50 true ex_cells (fst ex_result).
Theorem C43_second_call_refuted : exists af ar R0 R1 R2, ex_again = Ok (af, ar) /\ r0 ar = Some R0 /\ r1 ar = Some R1 /\ r2 ar = Some R2 /\
  ~ c_val R0 == over_cells constant_local ex_cells /\ c_val R0 == 3 * over_cells constant_local ex_cells /\
  ~ vector_of ex_cells ex_hng ex_dir R1 /\ Forall2 Qeq (v_vec R1) [6; 6] /\
  ~ matrix_of ex_cells ex_hng ex_dir R2 /\ Forall2 (Forall2 Qeq) (m_mat R2) [[3; -1]; [-1; 3]].
Proof.
  unfold ex_again. do 5 eexists. split; [vm_compute; reflexivity|]. split; [reflexivity|]. split; [reflexivity|]. split; [reflexivity|].
  split; [intros Z; vm_compute in Z; discriminate|]. split; [vm_compute; reflexivity|].
  assert (T : test_space ex_hng ex_dir (fun d => nth d [0; 1; 1; 0; 1] 0)).
  { intros c I. cbn in I. repeat (destruct I as [<-|I]; [vm_compute; reflexivity|]). destruct I. }
  split; [intros [_ [_ [_ V]]]; specialize (V _ T); vm_compute in V; discriminate|].
  split; [repeat constructor; reflexivity|].
  split; [|repeat constructor; reflexivity].
  intros [_ [_ [_ [_ [_ [_ V]]]]]].
  assert (Tr : trial_space ex_hng ex_dir (fun d => nth d [1; 1; 1; 2; 1] 0)).
  { intros c I. cbn in I. repeat (destruct I as [<-|I]; [vm_compute; reflexivity|]). destruct I. }
  specialize (V _ _ T Tr). vm_compute in V. discriminate.
Qed.
(** The order in which Python lists a set decides: if the largest dof is not the
    last one, consolidate raises an IndexError *)
Definition bad_order (l : list nat) : list nat := rev (sorted_set l).
Theorem C43_set_order_refuted :
  (forall l, NoDup (bad_order l) /\ forall d, In d (bad_order l) <-> In d l) /\
  assemble bad_order ex_hng ex_dir 50 true ex_cells (init_forms [1; 2; 0]%nat) = Err IndexError.
Proof.
  split; [|vm_compute; reflexivity]. intros l. split; [apply NoDup_rev, sorted_lists|]. intros d. unfold bad_order. rewrite <- in_rev. apply sorted_mem.
Qed.

(** A chain of hanging nodes: the values of the supporting hanging nodes are added
    before they are known *)
Definition chain_cells : list (nat * list local) :=
  [(0%nat, [Linear [0; 1]%nat [1; 1]; Bilinear [0; 1]%nat [0; 1]%nat stiff]);
   (1%nat, [Linear [2; 3]%nat [1; 1]; Bilinear [2; 3]%nat [2; 3]%nat stiff])].
Definition chain_hng : list (nat * list (nat * Q)) := [(2%nat, [(1%nat, 1)]); (3%nat, [(2%nat, 1)])].
Definition run (cand : mat) (n : nat) cells hng dir : res (list Q) :=
  bind (assemble sorted_set hng dir 50 false cells (init_forms [1; 2]%nat)) (fun r => solve (check cand) (seq 0 n) hng dir (snd r)).
Theorem C44_chain_refuted : acyclic chain_hng /\ exists u, run [[4]] 4 chain_cells chain_hng [(0%nat, 1)] = Ok u /\
  Forall2 Qeq u [1; 4; 4; 0] /\ ~ galerkin_solution chain_cells chain_hng [(0%nat, 1)] (fun i => nth i u 0) /\
  galerkin_solution chain_cells chain_hng [(0%nat, 1)] (fun i => nth i [1; 4; 4; 4] 0).
Proof.
  split. { exists (fun d => d). intros h p [<-|[<-|[]]] [<-|[]]; cbn; lia. }
  eexists. split; [vm_compute; reflexivity|]. split; [repeat constructor; reflexivity|]. split.
  - intros [T _]. specialize (T (mkC 3%nat [(2%nat, 1)] 0)). assert (I : In (mkC 3%nat [(2%nat, 1)] 0) (constraints chain_hng [(0%nat, 1)])) by (cbn; tauto).
    specialize (T I). vm_compute in T. discriminate.
  - split.
    + intros c I. cbn in I. repeat (destruct I as [<-|I]; [vm_compute; reflexivity|]). destruct I.
    + intros v T. assert (T2 := T (mkC 2%nat [(1%nat, 1)] 0)). assert (T3 := T (mkC 3%nat [(2%nat, 1)] 0)). assert (T0 := T (mkC 0%nat [] 1)).
      unfold homogeneous, combination in *. cbn in T0, T2, T3. specialize (T0 ltac:(tauto)). specialize (T2 ltac:(tauto)). specialize (T3 ltac:(tauto)).
      unfold over_cells, total. cbn. rewrite T3, T2, T0. ring.
Qed.
(** A hanging node with a Dirichlet condition: the two values are added, although
    both constraints can be fulfilled together *)
Definition both_cells : list (nat * list local) :=
  [(0%nat, [Linear [0; 3]%nat [1; 1]; Bilinear [0; 3]%nat [0; 3]%nat stiff]);
   (1%nat, [Linear [1; 2]%nat [1; 1]; Bilinear [1; 2]%nat [1; 2]%nat stiff])].
Definition both_hng : list (nat * list (nat * Q)) := [(1%nat, [(0%nat, 1 # 2); (2%nat, 1 # 2)])].
Definition both_dir : list (nat * Q) := [(0%nat, 1); (1%nat, 1); (2%nat, 1)].
Theorem C44_dirichlet_hanging_refuted : exists u, run [[2]] 4 both_cells both_hng both_dir = Ok u /\
  Forall2 Qeq u [1; 2; 1; 2] /\ ~ galerkin_solution both_cells both_hng both_dir (fun i => nth i u 0) /\
  galerkin_solution both_cells both_hng both_dir (fun i => nth i [1; 1; 1; 2] 0).
Proof.
  eexists. split; [vm_compute; reflexivity|]. split; [repeat constructor; reflexivity|]. split.
  - intros [T _]. specialize (T (mkC 1%nat [] 1)). assert (I : In (mkC 1%nat [] 1) (constraints both_hng both_dir)) by (cbn; tauto).
    specialize (T I). vm_compute in T. discriminate.
  - split.
    + intros c I. cbn in I. repeat (destruct I as [<-|I]; [vm_compute; reflexivity|]). destruct I.
    + intros v T. assert (T1 := T (mkC 1%nat [] 1)). assert (T2 := T (mkC 2%nat [] 1)). assert (T0 := T (mkC 0%nat [] 1)).
      unfold homogeneous, combination in *. cbn in T0, T1, T2. specialize (T0 ltac:(tauto)). specialize (T1 ltac:(tauto)). specialize (T2 ltac:(tauto)).
      unfold over_cells, total. cbn. rewrite T0, T1, T2. ring.
Qed.
(** A basis on part of the dofs (a submesh): the solution is written at the numbers
    of the dofs, not at their indices *)
Definition sub_cells : list (nat * list local) :=
  [(0%nat, [Linear [3; 4]%nat [1; 1]; Bilinear [3; 4]%nat [3; 4]%nat stiff]);
   (1%nat, [Linear [4; 5]%nat [1; 1]; Bilinear [4; 5]%nat [4; 5]%nat stiff])].
Theorem C44_submesh_refuted : exists r, assemble sorted_set [] [(3%nat, 0); (5%nat, 0)] 50 false sub_cells (init_forms [1; 2]%nat) = Ok r /\
  solve (check [[1]]) [3; 4; 5]%nat [] [(3%nat, 0); (5%nat, 0)] (snd r) = Err IndexError.
Proof. eexists. split; [vm_compute; reflexivity|]. vm_compute. reflexivity. Qed.
Print Assumptions C43_second_call_refuted.
Print Assumptions C43_set_order_refuted.
Print Assumptions C44_chain_refuted.
Print Assumptions C44_dirichlet_hanging_refuted.
Print Assumptions C44_submesh_refuted.
