(** * C84: elliptic problems on one-dimensional meshes have one solution, C85: polynomial solutions
    are found exactly *)
From Coq Require Import List Arith Bool Lia Permutation QArith Lqa Qfield.
From Verif Require Import Tree Forest SpecForest TreeFacts ForestFacts Geom SpecGeom IntervalFacts Fem SpecFem ShapeFacts Dof SpecDof DofVert SpecDofVert Basis Solver SpecSolver SolverFacts Nodal NodalFacts Nodal1 SpecNodal
  Nodal1Facts Nodal1Main Nodal1Interp Nodal1More Region1 SpecRegion1 Assemble SpecAssemble Kernel SpecKernel Dirichlet1 Prop_Kernel SpecProblem ProblemFacts ProblemMain Prop_Problem SpecExact ExactFacts.
From Verif Require Import AssembleFacts AssembleRun AssembleCells AssembleArr AssembleMain.
From Verif Require Prop_Bin Prop_Shape Prop_Assemble Prop_Dof1D.
Import ListNotations.
Open Scope Q_scope.

Lemma combine_in {X Y} (l : list X) (l' : list Y) x : length l = length l' -> In x l -> exists y, In (x, y) (combine l l').
Proof. revert l'. induction l as [|z l IH]; intros [|y l'] E I; cbn in *; try discriminate; try contradiction. destruct I as [->|I]; [exists y; left; reflexivity|]. destruct (IH l' ltac:(lia) I) as [y' I']. exists y'. right. exact I'. Qed.
(** ** integrals *)
Section Integral.
Context (M : mesh1) (rule : list Q * list Q).
Lemma int_ext mu fl p h h' : (forall x, h x == h' x) -> integral M rule mu fl p h == integral M rule mu fl p h'.
Proof.
  intros E. unfold integral. destruct (fget (m1_cells M) p) as [n|]; [|reflexivity]. destruct (n_data n) as [l r]. destruct mu; [destruct (has fl _); [|reflexivity]; apply tot_ext; intros; rewrite E; reflexivity|reflexivity|].
  destruct (has fl _), (has fl _); rewrite ?E; reflexivity.
Qed.
Lemma int_minus mu fl p h h' : integral M rule mu fl p (fun x => h x - h' x) == integral M rule mu fl p h - integral M rule mu fl p h'.
Proof.
  unfold integral. destruct (fget (m1_cells M) p) as [n|]; [|ring]. destruct (n_data n) as [l r]. destruct mu; [destruct (has fl _); [|ring]| ring|].
  - rewrite (tot_ext _ (fun xw => snd xw * (r - l) * h (l + (r - l) * fst xw) + - (1) * (snd xw * (r - l) * h' (l + (r - l) * fst xw)))) by (intros; ring). rewrite tot_plus, tot_scal. ring.
  - destruct (has fl _), (has fl _); ring.
Qed.
End Integral.
Lemma int_nonneg periodic a b e f sf s dv L B lab rule mu fl p h : in_use periodic a b e f sf s dv L B -> rule_ok rule -> positive_weights rule -> sub_leaf f sf p ->
  (forall x, leaf_around f sf x p -> 0 <= h x) -> 0 <= integral (mkM1 f periodic lab) rule mu fl p h.
Proof.
  intros U [RL RU] PW [n [En Ln]] H. destruct (use_leaf_width U p n En Ln) as [W _]. unfold integral. cbn [m1_cells m1_lab]. rewrite En. destruct (n_data n) as [l r] eqn:Ed. cbn [fst snd] in W.
  assert (A : forall x, l <= x <= r -> 0 <= h x) by (intros x X; apply H; exists n; rewrite Ed; auto). destruct mu.
  - destruct (has fl _); [|lra]. apply tot_nonneg. intros [t w] I. cbn [fst snd]. assert (0 <= t <= 1) by (apply RU; apply (in_combine_l _ _ _ _ I)). assert (0 < w) by (apply PW; apply (in_combine_r _ _ _ _ I)).
    apply Qmult_le_0_compat; [apply Qmult_le_0_compat; lra|]. apply A. split; nra.
  - lra.
  - pose proof (A l ltac:(lra)). pose proof (A r ltac:(lra)). destruct (has fl _), (has fl _); lra.
Qed.
Lemma bil_minus M rule bases terms ps Z V W :
  bilinear_value M rule bases terms ps Z (fun der p x => V der p x - W der p x) == bilinear_value M rule bases terms ps Z V - bilinear_value M rule bases terms ps Z W.
Proof.
  unfold bilinear_value.
  rewrite (tot_ext _ (fun p => total (fun t : term => match fm_test (fst t), fm_trial (fst t) with
    | Some i, Some j => integral M rule (fm_dmu (fst t)) (fm_flag (fst t)) p (fun x => snd t p x * Z (der_of bases i) p x * V (der_of bases j) p x)
    | _, _ => 0 end) terms + - (1) * total (fun t : term => match fm_test (fst t), fm_trial (fst t) with
    | Some i, Some j => integral M rule (fm_dmu (fst t)) (fm_flag (fst t)) p (fun x => snd t p x * Z (der_of bases i) p x * W (der_of bases j) p x)
    | _, _ => 0 end) terms)).
  - rewrite tot_plus, tot_scal. ring.
  - intros p _. rewrite <- tot_scal, <- tot_plus. apply tot_ext. intros t _. destruct (fm_test (fst t)), (fm_trial (fst t)); try ring.
    rewrite (int_ext _ _ _ _ _ _ (fun x => snd t p x * Z (der_of bases n) p x * V (der_of bases n0) p x - snd t p x * Z (der_of bases n) p x * W (der_of bases n0) p x)) by (intros; ring).
    rewrite int_minus. ring.
Qed.
(** a cubic whose derivative vanishes at the nodes of the rule in an interval is constant *)
Lemma flat_cubic rule m q l r : resolves rule m -> cdeg m q -> l < r -> (m <= 3)%nat -> (forall t, In t (fst rule) -> cub_x q (l + (r - l) * t) == 0) -> forall x, cub q x == cub q l.
Proof.
  intros RS D W M3 H. set (c := ccomp q l (r - l)). assert (Dc : cdeg m c) by (apply cdeg_comp; exact D).
  set (g := firstn m (let '(_, b, c2, d) := c in [b; 2 * c2; 3 * d])).
  assert (Eg : forall t, poly g t == cub_x c t).
  { intros t. unfold g. destruct c as [[[c0 c1] c2] c3] eqn:Ec. destruct Dc as [D1 [D2 D3]]. unfold cub_x. destruct m as [|[|[|m]]]; cbn [firstn poly]; [rewrite D1, D2, D3 by lia|rewrite D2, D3 by lia|rewrite D3 by lia|]; try ring.
    destruct m; cbn [firstn poly]; ring. }
  assert (Z : forall t, cub_x c t == 0).
  { intros t. rewrite <- Eg. apply RS; [unfold g; rewrite firstn_length; lia|]. intros t' I. rewrite Eg. unfold c. destruct (cub_comp q l (r - l) t') as [_ [C _]]. rewrite C, (H t' I). ring. }
  assert (K : forall t, cub c t == cub c 0).
  { intros t. clear - Z. destruct c as [[[c0 c1] c2] c3]. unfold cub, cub_x in *. pose proof (Z 0) as Z0. pose proof (Z 1) as Z1. pose proof (Z 2) as Z2.
    assert (c1 == 0) by lra. assert (c2 == 0) by lra. assert (c3 == 0) by lra. rewrite H, H0, H1. ring. }
  intros x. destruct (cub_comp q l (r - l) ((x - l) / (r - l))) as [C1 _]. destruct (cub_comp q l (r - l) 0) as [C2 _]. fold c in C1, C2.
  assert (E1 : l + (r - l) * ((x - l) / (r - l)) == x) by (field; lra). assert (E2 : l + (r - l) * 0 == l) by ring.
  rewrite (proj1 (cub_proper q _ _ E1)) in C1. rewrite (proj1 (cub_proper q _ _ E2)) in C2. rewrite <- C1, <- C2. apply K.
Qed.

(** ** C84 *)
(** The bilinear form is definite: a function that vanishes at the marked ends (at least one) with
    a(z,z) = 0 is zero *)
Theorem C84_definite a b e f sf s dv L B lab bases rule terms ps marker z Z :
  in_use false a b e f sf s dv L B -> torn e = false -> rule_ok rule -> positive_weights rule -> resolves rule (degree e) ->
  elliptic f sf bases terms -> (forall p, In p ps <-> sub_leaf f sf p) -> (exists x, marked_end a b lab marker x) ->
  represents e f sf s z Z -> (forall p x, leaf_around f sf x p -> marked_end a b lab marker x -> Z V0 p x == 0) ->
  bilinear_value (mkM1 f false lab) rule bases terms ps Z Z == 0 ->
  (forall d, In d L -> z d == 0) /\ forall p x, leaf_around f sf x p -> Z V0 p x == 0.
Proof.
  intros U NT RO PW RS [[t [i [k [It [Et [Eu [Ed [Em [Ef Kt]]]]]]]]] EL] PS [x0 [X0 Xm]] RZ ZE ZZ. set (M := mkM1 f false lab) in *.
  unfold bilinear_value in ZZ.
  assert (NN : forall p t', In p ps -> In t' terms -> 0 <= match fm_test (fst t'), fm_trial (fst t') with
    | Some i, Some j => integral M rule (fm_dmu (fst t')) (fm_flag (fst t')) p (fun x => snd t' p x * Z (der_of bases i) p x * Z (der_of bases j) p x) | _, _ => 0 end).
  { intros p t' Ip It'. destruct (fm_test (fst t')) as [i'|] eqn:E1, (fm_trial (fst t')) as [j'|] eqn:E2; try lra. destruct (EL t' i' j' It' E1 E2) as [ED KN].
    apply (int_nonneg _ _ _ _ _ _ _ _ _ _ lab rule _ _ p _ U RO PW); [apply PS; exact Ip|]. intros x LA. rewrite ED. pose proof (KN p x LA). set (zz := Z (der_of bases j') p x). assert (0 <= zz * zz) by nra. nra. }
  assert (T0 : forall p, In p ps -> integral M rule Dx None p (fun x => snd t p x * Z (V1 k) p x * Z (V1 k) p x) == 0).
  { intros p Ip. pose proof (tot_zero _ ps (fun p Ip => tot_nonneg _ terms (fun t' It' => NN p t' Ip It')) ZZ p Ip) as T1. cbn beta in T1.
    pose proof (tot_zero _ terms (fun t' It' => NN p t' Ip It') T1 t It) as T2. cbn beta in T2. rewrite Et, Eu, Ed, Em, Ef in T2. exact T2. }
  (* Z is constant on every leaf *)
  assert (FL : forall p n, fget f p = Some n -> is_leaf_of sf n -> forall x, fst (n_data n) <= x <= snd (n_data n) -> Z V0 p x == Z V0 p (fst (n_data n))).
  { intros p n En Ln x X. assert (Lp : sub_leaf f sf p) by (exists n; auto). destruct (rep_cub U _ Z p RZ Lp) as [q [Dq [_ Eq]]]. destruct (use_leaf_width U p n En Ln) as [Wd _].
    rewrite (Eq V0 x), (Eq V0 (fst (n_data n))) by (exists n; split; [exact En|split; [exact Ln|lra]]). cbn [cder].
    apply (flat_cubic rule (degree e) q _ (snd (n_data n)) RS Dq Wd (degree_3 e)). intros r Ir. specialize (T0 p (proj2 (PS p) Lp)).
    unfold integral in T0. cbn [M m1_cells] in T0. rewrite En in T0. destruct (n_data n) as [l r0] eqn:Edn. cbn [fst snd] in *. cbn [has] in T0.
    destruct RO as [RL RU]. destruct (combine_in (fst rule) (snd rule) r RL Ir) as [w Iw]. pose proof (RU r Ir) as R01.
    assert (LA : forall y, l <= y <= r0 -> leaf_around f sf y p) by (intros y Y; exists n; rewrite Edn; auto).
    assert (NNx : forall xw, In xw (combine (fst rule) (snd rule)) -> 0 <= snd xw * (r0 - l) * (snd t p (l + (r0 - l) * fst xw) * Z (V1 k) p (l + (r0 - l) * fst xw) * Z (V1 k) p (l + (r0 - l) * fst xw))).
    { intros [y wy] I. cbn [fst snd]. pose proof (RU y (in_combine_l _ _ _ _ I)). pose proof (PW wy (in_combine_r _ _ _ _ I)). set (y' := l + (r0 - l) * y).
      assert (L1 : leaf_around f sf y' p) by (apply LA; unfold y'; split; nra). pose proof (Kt p y' L1). set (zz := Z (V1 k) p y'). assert (0 <= zz * zz) by nra. apply Qmult_le_0_compat; [apply Qmult_le_0_compat; lra|nra]. }
    pose proof (tot_zero _ _ NNx T0 (r, w) Iw) as T1. cbn beta in T1. cbn [fst snd] in T1. set (y' := l + (r0 - l) * r) in *. assert (L1 : leaf_around f sf y' p) by (apply LA; unfold y'; split; nra).
    pose proof (Kt p y' L1) as K0. pose proof (PW w (in_combine_r _ _ _ _ Iw)) as W0. rewrite (Eq (V1 k) y' L1) in T1. cbn [cder] in T1. set (zz := cub_x q y') in *.
    assert (P0 : 0 < w * (r0 - l) * snd t p y') by (apply Qmult_lt_0_compat; [apply Qmult_lt_0_compat; lra|exact K0]).
    assert (Z2 : zz * zz == 0). { apply (Qmult_inj_l _ _ (w * (r0 - l) * snd t p y')); [lra|]. rewrite Qmult_0_r, <- T1. ring. }
    apply Qmult_integral in Z2. destruct Z2; assumption. }
  (* and zero *)
  assert (ZL : forall p n, In (p, n) (@row f sf) -> Z V0 p (fst (n_data n)) == 0).
  { assert (C1 : forall p n, In (p, n) (@row f sf) -> Z V0 p (fst (n_data n)) == Z V0 p (snd (n_data n))).
    { intros p n I. destruct (row_ends U p n I) as [_ [_ Wd]]. apply row_in in I. destruct I as [En Ln]. symmetry. apply (FL p n En Ln). lra. }
    assert (C2 : forall p n p' n', In (p, n) (@row f sf) -> In (p', n') (@row f sf) -> snd (n_data n) == fst (n_data n') -> Z V0 p (snd (n_data n)) == Z V0 p' (fst (n_data n'))).
    { intros p n p' n' I I' E. destruct (row_ends U p n I) as [_ [R1 _]]. destruct (row_ends U p' n' I') as [R2 _]. apply (continuous U _ Z p p' _ _ NT RZ R1 R2 E). }
    assert (ME : forall y, y == x0 -> marked_end a b lab marker y) by (intros y Y; split; [destruct X0; [left|right]; lra|intros g Eg; rewrite (Qred_complete _ _ Y); apply Xm; exact Eg]).
    destruct X0 as [X0|X0].
    - apply (chain_left (Z V0) b (@row f sf) a (row_tiles U) C1 C2). intros p n I E. destruct (row_ends U p n I) as [R1 _]. apply (ZE p _ R1). apply ME. lra.
    - apply (chain_right (Z V0) b (@row f sf) a (row_tiles U) C1 C2). intros p n I E. destruct (row_ends U p n I) as [_ [R1 _]]. apply (ZE p _ R1). apply ME. lra. }
  assert (ZA : forall p x, leaf_around f sf x p -> Z V0 p x == 0).
  { intros p x [n [En [Ln X]]]. rewrite (FL p n En Ln x X). apply ZL. apply row_in. auto. }
  split; [|exact ZA].
  intros d Id. apply (use_L U) in Id. destruct Id as [p [j [Lp Dj]]]. destruct Lp as [n [En Ln]]. assert (Lp : sub_leaf f sf p) by (exists n; auto).
  pose proof (slot_lt U p j d Lp Dj) as Lj. destruct (node_nth e j Lj) as [r [Er _]]. assert (Pz : position1 e f p j (imap (n_data n) r)) by (exists n, r; auto).
  pose proof (value_at_node _ _ _ _ _ _ _ _ _ _ U _ Z p j d _ RZ Lp Dj Pz) as E. rewrite ZA in E; [lra|].
  exists n. split; [exact En|]. split; [exact Ln|]. destruct (use_leaf_width U p n En Ln) as [Wd _]. destruct (Prop_Shape.C31_lagrange_1d e) as [_ LG]. destruct (LG j r Er) as [Ur _]. unfold imap. split; nra.
Qed.
Print Assumptions C84_definite.
(** There is one finite element function with the prescribed values at the marked ends that
    satisfies the equation *)
Theorem C84_unique a b e f sf s dv L B lab bases rule terms ps marker df v V u W :
  in_use false a b e f sf s dv L B -> torn e = false -> rule_ok rule -> positive_weights rule -> resolves rule (degree e) ->
  elliptic f sf bases terms -> (forall p, In p ps <-> sub_leaf f sf p) -> (exists x, marked_end a b lab marker x) ->
  represents e f sf s v V -> represents e f sf s u W ->
  weak_solution a b e f sf s lab marker df rule bases terms ps V -> weak_solution a b e f sf s lab marker df rule bases terms ps W ->
  (forall d, In d L -> v d == u d) /\ forall p x, leaf_around f sf x p -> V V0 p x == W V0 p x.
Proof.
  intros U NT RO PW RS EL PS ME RV RW [BV SV] [BW SW].
  set (M := mkM1 f false lab) in *. set (Z := fun der p x => V der p x - W der p x). pose proof (rep_sub U v V u W RV RW) as RZ. fold Z in RZ.
  assert (ZE : forall p x, leaf_around f sf x p -> marked_end a b lab marker x -> Z V0 p x == 0).
  { intros p x LA Mx. pose proof (BV p x LA Mx) as E1. pose proof (BW p x LA Mx) as E2. unfold Z. destruct df as [c|g|]; cbn in E1, E2; [rewrite E1, E2; ring|rewrite E1, E2; ring|destruct E1]. }
  assert (ZZ : bilinear_value M rule bases terms ps Z Z == 0).
  { unfold Z at 2. rewrite bil_minus, (SV _ Z RZ ZE), (SW _ Z RZ ZE). ring. }
  destruct (C84_definite a b e f sf s dv L B lab bases rule terms ps marker _ Z U NT RO PW RS EL PS ME RZ ZE ZZ) as [D1 D2]. split.
  - intros d Id. pose proof (D1 d Id) as E. cbn beta in E. lra.
  - intros p x LA. pose proof (D2 p x LA) as E. unfold Z in E. lra.
Qed.
Print Assumptions C84_unique.

(** a bilinear term has a local matrix on the dofs of every leaf *)
Lemma cell_has e M s bases rule fms ps cells p fm i j : problem_cells e M s bases rule fms ps = Ok cells -> In p ps -> In fm fms -> fm_test fm = Some i -> fm_trial fm = Some j ->
  exists c ds A, In c cells /\ In (Bilinear ds ds A) (snd c) /\ cell_dofs1 s p = Some ds.
Proof.
  intros E Ip If Et Eu. unfold problem_cells in E. apply mr_inv in E.
  assert (IC : exists k, In (k, p) (combine (seq 0 (length ps)) ps)).
  { apply (In_nth _ _ []) in Ip. destruct Ip as [k [Lk Ek]]. exists k. replace (k, p) with (nth k (combine (seq 0 (length ps)) ps) (0%nat, [])); [apply nth_In; rewrite combine_length, seq_length, Nat.min_id; exact Lk|].
    rewrite combine_nth by (rewrite seq_length; reflexivity). rewrite seq_nth by exact Lk. rewrite Ek. reflexivity. }
  destruct IC as [k IC]. apply In_nth_error in IC. destruct IC as [m Em]. destruct (f2_nth _ _ _ m _ E Em) as [c [Ec Hc]]. cbn [fst snd] in Hc.
  destruct (cell_locals e M s bases rule fms p) as [ls|] eqn:El; [|discriminate]. cbn [bind] in Hc. injection Hc as <-. apply nth_error_In in Ec.
  unfold cell_locals in El. destruct (fget (m1_cells M) p) as [n|]; [|discriminate]. destruct (cell_dofs1 s p) as [ds|]; [|discriminate]. apply mr_inv in El.
  apply In_nth_error in If. destruct If as [m' Em']. destruct (f2_nth _ _ _ m' _ El Em') as [loc [Eloc Hl]]. apply nth_error_In in Eloc.
  unfold local_form in Hl. rewrite Et, Eu in Hl. destruct (form_regions e M bases rule fm p (n_data n) ds) as [rs|]; [|discriminate]. cbn [bind] in Hl.
  destruct (eval_bilinear (fm_kernel fm) i j (n_dofs D1 e) (n_dofs D1 e) rs) as [l|]; [|discriminate]. cbn [bind] in Hl.
  exists (k, ls), ds. eexists. split; [exact Ec|]. split; [|reflexivity]. cbn [snd]. apply (f_equal (fun r => match r with Ok l => l | Err _ => loc end)) in Hl. cbn beta iota in Hl. subst loc. exact Eloc.
Qed.

(** the system matrix is nonsingular *)
Section Solve.
Context (a b : Q) (e : elem) (f : forest itv) (sf : option flag) (s : dofs) (dv : dverts) (n : nat) (B : list (option nat) * list nat) (lab : Q -> flag -> bool)
  (bases : list deriv) (rule : list Q * list Q) (terms : list term) (ps : list path) (marker : option flag) (df : dir_data).
Context (U : in_use false a b e f sf s dv (seq 0 n) B) (HV : forall d, (d < n)%nat -> has_vertex dv d) (NT : torn e = false)
  (RO : rule_ok rule) (PW : positive_weights rule) (RS : resolves rule (degree e))
  (TK : Forall (term_ok e (mkM1 f false lab) sf s bases) terms) (EL : elliptic f sf bases terms) (PS : forall p, In p ps <-> sub_leaf f sf p)
  (ME : exists x, marked_end a b lab marker x) (NS : df <> DSame) (PD : proper_data df).
Notation M := (mkM1 f false lab).
Notation dims := (map (fun t => form_dim (fst t)) terms).

Lemma ell_dims : In 2%nat dims.
Proof. destruct EL as [[t [i [k [It [Et [Eu _]]]]]] _]. apply in_map_iff. exists t. split; [|exact It]. unfold form_dim. rewrite Et, Eu. reflexivity. Qed.
Lemma not_dq0 : e <> DQ0.
Proof. intros ->. discriminate NT. Qed.
Lemma HV' d : In d (seq 0 n) -> has_vertex dv d.
Proof. intros I. apply in_seq in I. apply HV. lia. Qed.
(** Dirichlet conditions and cells *)
Definition setting (dir : list (nat * Q)) (cells : list (nat * list local)) : Prop :=
  add_dirichlet1 e M s dv marker df true sf [] = Ok dir /\ problem_cells e M s bases rule (map fst terms) ps = Ok cells /\
  NoDup (map fst dir) /\ (forall d, In d (map fst dir) <-> exists z, conditioned a b e f sf s lab marker true d z) /\
  problem dims cells /\ galerkin cells /\ well_posed n cells [] dir /\
  (forall v u V W, represents e f sf s v V -> represents e f sf s u W -> over_cells (bilinear_local v u) cells == bilinear_value M rule bases terms ps V W).
Lemma setting_ex : exists dir cells, setting dir cells.
Proof.
  destruct (C81_conditions a b e f sf s dv (seq 0 n) B lab marker df true [] U HV' NS PD (NoDup_nil _)) as [dir [E1 [ND [C1 [_ C3]]]]].
  destruct (C82_forms false a b e f sf s dv (seq 0 n) B lab bases rule terms ps U RO TK (fun p I => proj1 (PS p) I)) as [cells [E2 [P1 [P2 [P3 [P4 [P5 _]]]]]]].
  exists dir, cells. split; [exact E1|]. split; [exact E2|]. split; [exact ND|]. assert (C3' : forall d, In d (map fst dir) <-> exists z, conditioned a b e f sf s lab marker true d z) by (intros d; rewrite C3; cbn; tauto).
  split; [exact C3'|]. split; [exact P1|]. split; [exact P2|]. split; [|exact P4].
  split; [intros d Hd; apply P3 in Hd; apply in_seq in Hd; lia|]. split; [intros h []|]. split; [|split; [constructor|exact ND]].
  intros [d y] I. split; [|intros []]. cbn. apply (in_map fst) in I. cbn in I. apply C3' in I. destruct I as [z [p [k [Lp [Dk _]]]]].
  assert (Q : In d (seq 0 n)) by (apply (use_L U); exists p, k; auto). apply in_seq in Q. lia.
Qed.
(** a dof at a marked end of a leaf is a Dirichlet dof *)
Lemma end_conditioned p x : leaf_around f sf x p -> marked_end a b lab marker x -> exists k d z, dof_at s p k d /\ position1 e f p k z /\ z == x /\ conditioned a b e f sf s lab marker true d z.
Proof.
  intros LA [Hx Lx]. assert (Lp : sub_leaf f sf p) by (exact (around_sub x p LA)). pose proof (around_end _ _ _ _ _ _ _ _ _ _ U p x LA Hx) as En.
  destruct (end_dof _ _ _ _ _ _ _ _ _ _ U p x not_dq0 Lp En) as [k [d [z [Dk [Pz Ez]]]]]. exists k, d, z. split; [exact Dk|]. split; [exact Pz|]. split; [exact Ez|].
  exists p, k. split; [exact Lp|]. split; [exact Dk|]. split; [exact Pz|]. split; [destruct En as [m [Em Hm]]; exists m; split; [exact Em|destruct Hm; [left|right]; lra]|].
  split; [intros _; destruct Hx; [left|right]; lra|]. intros g Eg. rewrite (Qred_complete _ _ Ez). apply Lx. exact Eg.
Qed.
Lemma zero_bilinear z cells : over_cells (bilinear_local z (fun _ => 0)) cells == 0.
Proof. unfold over_cells. apply total_zero. intros c _. apply total_zero. intros g _. destruct g; cbn; try reflexivity. apply SolverFacts.sum_zero. intros i _. apply SolverFacts.sum_zero. intros j _. ring. Qed.

Lemma regular dir cells order fuel keep af ar A : setting dir cells -> lists_sets order -> canonical order ->
  assemble order [] dir fuel keep cells (init_forms dims) = Ok (af, ar) -> r2 ar = Some A -> m_cols A = m_rows A /\ nonsingular (length (m_rows A)) (m_mat A).
Proof.
  intros [E1 [E2 [ND [C3 [P [Ga [W P4]]]]]]] O Ca E EA.
  destruct (assembled order [] dir fuel keep dims cells af ar O P Ga E) as [_ [_ [Hm _]]].
  destruct (Hm A EA) as [[Nr [Nc [Fr [Fc [Sh [Lx Sm]]]]]] [l2 [l3 [El2 [El3 [S2 [S3 X0]]]]]]].
  assert (Erc : m_cols A = m_rows A) by (rewrite El3, El2; apply Ca; intros d; rewrite S2, S3; tauto). split; [exact Erc|].
  assert (RL : forall d, In d (m_rows A) -> In d (seq 0 n)).
  { intros d I. rewrite El2 in I. apply (proj1 (proj2 (O l2))) in I. apply S2 in I. destruct I as [d0 [I [R _]]]. apply in_seq. split; [lia|].
    apply (red_cell n cells [] dir d0 d W); [|exact R]. apply W. apply (in2_cell cells Ga d0 d0 I). }
  intros x Hx. set (rows := m_rows A) in *. set (m := length rows) in *.
  set (z := fun d => sum m (fun i => if (nth i rows 0 =? d)%nat then x i else 0)).
  assert (ZR : forall i, (i < m)%nat -> z (nth i rows 0%nat) == x i).
  { intros i Hi. unfold z. rewrite (SolverFacts.sum_one m i); [rewrite Nat.eqb_refl; reflexivity|exact Hi|]. intros j Hj D. destruct (Nat.eqb_spec (nth j rows 0%nat) (nth i rows 0%nat)) as [Eq|_]; [|reflexivity].
    exfalso. apply D. exact (proj1 (NoDup_nth rows 0%nat) Nr j i Hj Hi Eq). }
  assert (ZN : forall d, ~ In d rows -> z d == 0).
  { intros d N. unfold z. apply SolverFacts.sum_zero. intros i Hi. destruct (Nat.eqb_spec (nth i rows 0%nat) d) as [<-|_]; [|reflexivity]. exfalso. apply N. apply nth_In. exact Hi. }
  assert (ZD : forall d, In d (map fst dir) -> z d == 0).
  { intros d I. apply ZN. intros I'. rewrite Forall_forall in Fr. exact (proj2 (Fr d I') I). }
  assert (TZ : test_space [] dir z).
  { intros c I. unfold constraints in I. cbn in I. apply in_map_iff in I. destruct I as [d [<- I]]. unfold homogeneous. cbn. rewrite ZD; [reflexivity|]. apply in_map. exact I. }
  assert (FR : forall j, (j < m)%nat -> dirichlet_values dir (nth j rows 0%nat) = 0).
  { intros j Hj. apply Prop_Assemble.dir_free. rewrite Forall_forall in Fr. apply Fr. apply nth_In. exact Hj. }
  set (bnd := sum m (fun i => z (nth i rows 0%nat) * match m_x0 A with Some x0 => nth i x0 0 | None => 0 end)).
  assert (Q1 : bnd == over_cells (bilinear_local z (dirichlet_values dir)) cells).
  { pose proof (Sm z _ TZ (Prop_Assemble.dir_trial dir (fun _ => 0) ND (fun _ _ => Qeq_refl 0))) as H1. rewrite Erc in H1. fold rows m bnd in H1.
    rewrite (Prop_Assemble.over_plus _ _ _ cells (Prop_Assemble.bilinear_plus z (dirichlet_values dir) (fun _ => 0))) in H1. rewrite zero_bilinear in H1.
    rewrite (SolverFacts.sum_zero m) in H1; [lra|]. intros i Hi. apply SolverFacts.sum_zero. intros j Hj. rewrite (FR j Hj). ring. }
  assert (Q2 : over_cells (bilinear_local z z) cells == 0).
  { pose proof (Sm z _ TZ (Prop_Assemble.dir_trial dir z ND ZD)) as H1. rewrite Erc in H1. fold rows m bnd in H1.
    rewrite (Prop_Assemble.over_plus _ _ _ cells (Prop_Assemble.bilinear_plus z (dirichlet_values dir) z)) in H1.
    rewrite (SolverFacts.sum_zero m) in H1; [rewrite Q1 in H1; lra|]. intros i Hi. rewrite (SolverFacts.sum_ext m _ (fun j => z (nth i rows 0%nat) * (entry (m_mat A) i j * x j))).
    - rewrite SolverFacts.sum_scal. pose proof (Hx i Hi) as Hi0. unfold mulv in Hi0. rewrite Hi0. ring.
    - intros j Hj. rewrite (FR j Hj), (ZR j Hj). ring. }
  destruct (C82_functions _ _ _ _ _ _ _ _ _ _ z U) as [Z [RZ _]]. rewrite (P4 z z Z Z RZ RZ) in Q2.
  destruct (C84_definite a b e f sf s dv (seq 0 n) B lab bases rule terms ps marker z Z U NT RO PW RS EL PS ME RZ) as [D1 _]; [|exact Q2|].
  - intros p y LA My. destruct (end_conditioned p y LA My) as [k [d [y' [Dk [Py [Ey Cd]]]]]].
    rewrite (rep_proper U z Z p y y' V0 RZ LA (Qeq_sym _ _ Ey)), (value_at_node _ _ _ _ _ _ _ _ _ _ U z Z p k d y' RZ (around_sub y p LA) Dk Py). apply ZD. apply C3. exists y'. exact Cd.
  - intros i Hi. rewrite <- (ZR i Hi). apply D1. apply RL. apply nth_In. exact Hi.
Qed.

(** a leaf at a marked end has a free dof, unless all dofs are Dirichlet dofs *)
Lemma some_free (dd : list nat) (ds : list nat) : (exists r, In r ds /\ ~ In r dd) \/ forall r, In r ds -> In r dd.
Proof.
  induction ds as [|x ds [[r [I N]]|IH]]; [right; intros r []|left; exists r; split; [right; exact I|exact N]|].
  destruct (in_dec Nat.eq_dec x dd) as [I|N]; [right; intros r [<-|H]; auto|left; exists x; split; [left; reflexivity|exact N]].
Qed.
Lemma dof_ex p k : sub_leaf f sf p -> (k < n_dofs D1 e)%nat -> exists d, dof_at s p k d.
Proof.
  intros [m [Em Lm]] Hk. destruct (leaf_dofs U p m Em Lm) as [ds [_ [Ld [Hd _]]]]. destruct (nth_error ds k) as [d|] eqn:E; [exists d; apply Hd; exact E|]. apply nth_error_None in E. lia.
Qed.
Lemma around_node p k z : sub_leaf f sf p -> position1 e f p k z -> leaf_around f sf z p.
Proof.
  intros [m [Em Lm]] [m' [r [Em' [Er ->]]]]. rewrite Em in Em'. injection Em' as <-. exists m. split; [exact Em|]. split; [exact Lm|].
  destruct (use_leaf_width U p m Em Lm) as [Wd _]. destruct (Prop_Shape.C31_lagrange_1d e) as [_ LG]. destruct (LG k r Er) as [Ur _]. apply unit_in; assumption.
Qed.
Lemma same_dof p k x d q j y d' : dof_at s p k d -> dof_at s q j d' -> position1 e f p k x -> position1 e f q j y -> (d = d' <-> x == y).
Proof.
  intros H1 H2 X Y. pose proof (Prop_Dof1D.C34_continuous false a b e f s p k x d q j y d' (use_dof U) NT H1 H2 X Y) as C. rewrite C. unfold same_point. split; [intros [E|[E _]]; [exact E|discriminate E]|auto].
Qed.
Lemma free_beside (dir : list (nat * Q)) d0 : (forall d, In d (map fst dir) <-> exists z, conditioned a b e f sf s lab marker true d z) -> (d0 < n)%nat -> ~ In d0 (map fst dir) ->
  exists p m ds r d, fget f p = Some m /\ is_leaf_of sf m /\ cell_dofs1 s p = Some ds /\ In r ds /\ In d ds /\ ~ In r (map fst dir) /\ In d (map fst dir).
Proof.
  intros C3 L0 N0. destruct ME as [x Mx]. assert (I0 : In d0 (seq 0 n)) by (apply in_seq; lia). apply (use_L U) in I0. destruct I0 as [q0 [j0 [Lq Dq]]].
  pose proof (slot_lt U q0 j0 d0 Lq Dq) as Lj. destruct Lq as [mq [Emq Lmq]]. assert (Lq : sub_leaf f sf q0) by (exists mq; auto).
  destruct (use_leaf_width U q0 mq Emq Lmq) as [Wq [Aq Bq]].
  assert (LA : exists p, leaf_around f sf x p).
  { assert (NE : map (fun c => n_data (snd c)) (@row f sf) <> []) by (intros E; apply map_eq_nil in E; apply (in_nil (a := (q0, mq))); rewrite <- E; apply row_in; auto).
    destruct (tiles_cover a b _ x (row_tiles U) NE) as [d [Id Hd]]; [destruct Mx as [[E|E] _]; lra|]. apply in_map_iff in Id. destruct Id as [[p m] [Ed I]]. cbn in Ed. apply row_in in I. destruct I as [Em Lm]. exists p, m. rewrite Ed. auto. }
  destruct LA as [p LA]. pose proof LA as [m [Em [Lm Xm]]]. assert (Lp : sub_leaf f sf p) by (exists m; auto).
  destruct (leaf_dofs U p m Em Lm) as [ds [Ed [Ld [Hd _]]]]. destruct (end_conditioned p x LA Mx) as [k [d [z [Dk [_ [_ Cd]]]]]].
  destruct (some_free (map fst dir) ds) as [[r [Ir Nr]]|All].
  - exists p, m, ds, r, d. split; [exact Em|]. split; [exact Lm|]. split; [exact Ed|]. split; [exact Ir|]. split; [apply Hd in Dk; apply nth_error_In in Dk; exact Dk|]. split; [exact Nr|]. apply C3. exists z. exact Cd.
  - exfalso. destruct (use_leaf_width U p m Em Lm) as [Wd _].
    assert (EN : forall y, end_of f p y -> y == a \/ y == b).
    { intros y Ey. destruct (end_dof _ _ _ _ _ _ _ _ _ _ U p y not_dq0 Lp Ey) as [k1 [d1 [z1 [D1 [P1 E1]]]]].
      assert (I1 : In d1 (map fst dir)) by (apply All; apply Hd in D1; apply nth_error_In in D1; exact D1). apply C3 in I1. destruct I1 as [z2 [p2 [k2 [_ [D2 [P2 [_ [B2 _]]]]]]]].
      pose proof (proj1 (same_dof _ _ _ _ _ _ _ _ D1 D2 P1 P2) eq_refl) as E2. destruct (B2 eq_refl); [left|right]; lra. }
    destruct (EN (fst (n_data m))) as [E1|E1]; [exists m; split; [exact Em|left; reflexivity]| |].
    2: { destruct (use_leaf_width U p m Em Lm) as [? [? ?]]. lra. }
    destruct (EN (snd (n_data m))) as [E2|E2]; [exists m; split; [exact Em|right; reflexivity]|lra|].
    destruct (node_nth e j0 Lj) as [r0 [Er0 _]]. assert (P0 : position1 e f q0 j0 (imap (n_data mq) r0)) by (exists mq, r0; auto). pose proof (around_node q0 j0 _ Lq P0) as [mq' [Emq' [_ X0]]]. rewrite Emq in Emq'. injection Emq' as <-.
    destruct (node_everywhere U q0 j0 _ p Lq Lj P0) as [j [z' [Lj' [Pz' Ez']]]]; [exists m; split; [exact Em|split; [exact Lm|lra]]|].
    destruct (dof_ex p j Lp Lj') as [d' Dj]. pose proof (proj2 (same_dof _ _ _ _ _ _ _ _ Dj Dq Pz' P0) Ez') as E. subst d'. apply N0. apply All. apply Hd in Dj. apply nth_error_In in Dj. exact Dj.
Qed.

Theorem solvable solver order keep d0 : exact_spsolve solver -> complete_spsolve solver -> lists_sets order -> SpecAssemble.canonical order ->
  In 1%nat dims -> (d0 < n)%nat -> (forall z, ~ conditioned a b e f sf s lab marker true d0 z) ->
  exists dir cells N, add_dirichlet1 e M s dv marker df true sf [] = Ok dir /\ problem_cells e M s bases rule (map fst terms) ps = Ok cells /\
    forall fuel, (N <= fuel)%nat -> exists af ar u, assemble order [] dir fuel keep cells (init_forms dims) = Ok (af, ar) /\ solve solver (seq 0 n) [] dir ar = Ok u /\
      length u = n /\ forall W, represents e f sf s (fun d => nth d u 0) W -> weak_solution a b e f sf s lab marker df rule bases terms ps W.
Proof.
  intros SE SC LO CO I1 H0 F0. destruct setting_ex as [dir [cells Se]]. pose proof Se as [E1 [E2 [ND [C3 [P [Ga [WP P4]]]]]]]. exists dir, cells.
  assert (ND0 : ~ In d0 (map fst dir)) by (intros I; apply C3 in I; destruct I as [z C]; exact (F0 z C)).
  destruct EL as [[t [i [k0 [It [Et [Eu _]]]]]] _].
  assert (CH : forall p m, fget f p = Some m -> is_leaf_of sf m -> exists c ds A, In c cells /\ In (Bilinear ds ds A) (snd c) /\ cell_dofs1 s p = Some ds).
  { intros p m Em Lm. apply (cell_has e M s bases rule (map fst terms) ps cells p (fst t) i i E2); [apply PS; exists m; auto|apply in_map; exact It|exact Et|exact Eu]. }
  assert (CD : cell_dof cells d0).
  { assert (I0 : In d0 (seq 0 n)) by (apply in_seq; lia). apply (use_L U) in I0. destruct I0 as [q0 [j0 [[mq [Emq Lmq]] Dq]]].
    destruct (CH q0 mq Emq Lmq) as [c [ds [A [Ic [If Ed]]]]]. destruct (leaf_dofs U q0 mq Emq Lmq) as [ds' [Ed' [_ [Hd _]]]]. rewrite Ed in Ed'. injection Ed' as <-.
    exists c, (Bilinear ds ds A). split; [exact Ic|]. split; [exact If|]. cbn. apply Hd in Dq. apply nth_error_In in Dq. exact Dq. }
  destruct (Prop_Assemble.C43_total order [] dir keep dims cells LO P Ga) as [N HN].
  { exists (fun _ => 0%nat). intros h p []. }
  { apply Forall_forall. intros k Ik. apply in_map_iff in Ik. destruct Ik as [t' [<- _]]. unfold form_dim. destruct (fm_test (fst t')), (fm_trial (fst t')); lia. }
  { exists d0. split; [exact CD|]. split; [intros []|exact ND0]. }
  exists N. split; [exact E1|]. split; [exact E2|]. intros fuel HF. destruct (HN fuel HF) as [[af ar] EA]. exists af, ar.
  assert (Hn : (0 < n)%nat) by lia.
  destruct (assembled order [] dir fuel keep dims cells af ar LO P Ga EA) as [_ [_ [_ [_ [_ K2]]]]].
  destruct (r2 ar) as [A|] eqn:ER; [|exfalso; apply (proj1 K2 eq_refl); exact ell_dims].
  destruct (regular dir cells order fuel keep af ar A Se LO CO EA ER) as [Esq NSg].
  destruct (Prop_Assemble.C44_total solver order n dims cells [] dir fuel keep af ar A LO CO P I1 ell_dims Ga Hn WP EA) as [u ES].
  { destruct (free_beside dir d0 C3 H0 ND0) as [p [m [ds [r [d [Em [Lm [Ed [Ir [Id [Nr Idr]]]]]]]]]]]. destruct (CH p m Em Lm) as [c [ds' [A' [Ic [If Ed']]]]]. rewrite Ed in Ed'. injection Ed' as <-.
    exists c, ds, ds, A', r, d. split; [exact Ic|]. split; [exact If|]. split; [exact Ir|]. split; [exact Id|]. split; [split; [intros []|exact Nr]|exact Idr]. }
  { exact ER. }
  { intros y Sy. destruct (assembled order [] dir fuel keep dims cells af ar LO P Ga EA) as [_ [_ [Hm _]]]. destruct (Hm A ER) as [[_ [_ [_ [_ [Sh _]]]]] _]. rewrite Esq in Sh.
    apply (SC (length (m_rows A)) (m_mat A) y Sh Sy NSg). }
  exists u. split; [exact EA|]. split; [exact ES|].
  destruct (C83_solution a b e f sf s dv n B lab bases rule terms ps marker df dir solver order fuel keep cells af ar u U HV not_dq0 RO TK (fun p I => proj1 (PS p) I) I1 ell_dims SE LO CO NS PD E1 E2 EA ES) as [Lu Hu].
  split; [exact Lu|]. intros W RW. exact (Hu W RW).
Qed.
End Solve.

(** Elliptic problems: assembly and solve return the nodal values of the one solution.
    (Not every dof is a Dirichlet dof: otherwise nothing is left to assemble.) *)
Theorem C84_solvable a b e f sf s dv n B lab bases rule terms ps marker df solver order keep d0 :
  in_use false a b e f sf s dv (seq 0 n) B -> (forall d, (d < n)%nat -> has_vertex dv d) -> torn e = false ->
  rule_ok rule -> positive_weights rule -> resolves rule (degree e) ->
  Forall (term_ok e (mkM1 f false lab) sf s bases) terms -> elliptic f sf bases terms -> In 1%nat (map (fun t => form_dim (fst t)) terms) ->
  (forall p, In p ps <-> sub_leaf f sf p) -> (exists x, marked_end a b lab marker x) -> df <> DSame -> proper_data df ->
  exact_spsolve solver -> complete_spsolve solver -> lists_sets order -> SpecAssemble.canonical order ->
  (d0 < n)%nat -> (forall z, ~ conditioned a b e f sf s lab marker true d0 z) ->
  exists dir cells N, add_dirichlet1 e (mkM1 f false lab) s dv marker df true sf [] = Ok dir /\
    problem_cells e (mkM1 f false lab) s bases rule (map fst terms) ps = Ok cells /\
    forall fuel, (N <= fuel)%nat -> exists af ar u,
      assemble order [] dir fuel keep cells (init_forms (map (fun t => form_dim (fst t)) terms)) = Ok (af, ar) /\
      solve solver (seq 0 n) [] dir ar = Ok u /\ length u = n /\
      (forall W, represents e f sf s (fun d => nth d u 0) W -> weak_solution a b e f sf s lab marker df rule bases terms ps W) /\
      forall v V, represents e f sf s v V -> weak_solution a b e f sf s lab marker df rule bases terms ps V -> forall d, (d < n)%nat -> nth d u 0 == v d.
Proof.
  intros U HV NT RO PW RS TK EL I1 PS ME NS PD SE SC LO CO H0 F0.
  destruct (solvable a b e f sf s dv n B lab bases rule terms ps marker df U HV NT RO PW RS TK EL PS ME NS PD solver order keep d0 SE SC LO CO I1 H0 F0) as [dir [cells [N [E1 [E2 HN]]]]].
  exists dir, cells, N. split; [exact E1|]. split; [exact E2|]. intros fuel HF. destruct (HN fuel HF) as [af [ar [u [EA [ES [Lu HW]]]]]]. exists af, ar, u.
  split; [exact EA|]. split; [exact ES|]. split; [exact Lu|]. split; [exact HW|]. intros v V RV SV d Hd.
  destruct (C82_functions _ _ _ _ _ _ _ _ _ _ (fun d => nth d u 0) U) as [W [RW _]].
  destruct (C84_unique a b e f sf s dv (seq 0 n) B lab bases rule terms ps marker df _ W v V U NT RO PW RS EL PS ME RW RV (HW W RW) SV) as [D _].
  apply (D d). apply in_seq. lia.
Qed.
Print Assumptions C84_solvable.
