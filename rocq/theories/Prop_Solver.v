(** * C40-C42: linear systems with constraints (LinearSystem) *)
From Coq Require Import List Arith Bool QArith Lia Lqa Setoid Morphisms Qring.
From Verif Require Import Tree TreeFacts Geom Dof Solver SpecSolver SolverFacts SolverRun SolverElim SolverMain SolverSpd SolverRep.
Import ListNotations.
Open Scope Q_scope.

Lemma guess_exact : forall n cand, exact_solver n (guess n cand).
Proof.
  intros n cand A m b u E. unfold guess in E.
  destruct (shape n m cand && _) eqn:Q in E; [|discriminate]. injection E as <-.
  apply andb_prop in Q. destruct Q as [S F]. split; [exact S|]. intros i j Hi Hj.
  rewrite forallb_forall in F. specialize (F i). rewrite in_seq in F. specialize (F (conj (Nat.le_0_l i) Hi)).
  rewrite forallb_forall in F. specialize (F j). rewrite in_seq in F. specialize (F (conj (Nat.le_0_l j) Hj)).
  apply Qeq_bool_iff. exact F.
Qed.

Lemma system_state : forall n hs A ob s0, linear_system (seq 0 n) hs (Some A) ob = Ok s0 ->
  whole n s0 /\ shape n n A = true /\ l_cons s0 = hs /\ l_A s0 = Some A /\ l_C s0 = None /\ l_inv s0 = None /\
  l_b s0 = ob /\ l_b_constrained s0 = false /\ (forall m b, ob = Some (m, b) -> shape n m b = true).
Proof.
  intros n hs A ob s0 E. unfold linear_system in E.
  destruct n as [|n']; [discriminate|]. set (n := S n') in *.
  rewrite make_d2e_seq in E by (unfold n; lia). cbn [bind] in E. unfold set_matrix in E.
  assert (Ln : forall a b c d e f g h i j, n_eqns (mkS (seq 0 n) a b c d e f g h i j) = n).
  { intros. unfold n_eqns. cbn [l_dofs]. apply seq_length. }
  rewrite Ln in E. destruct (shape n n A) eqn:SA; [|discriminate]. cbn [bind l_dofs l_d2e l_cons l_b l_b_constrained l_C l_d l_rec l_u] in E.
  unfold set_rhs in E. destruct ob as [[m b]|].
  - rewrite Ln in E. destruct (shape n m b) eqn:Sb; [|discriminate].
    cbn [l_dofs l_d2e l_cons l_A l_b l_b_constrained l_C l_d l_rec l_inv l_u] in E. injection E as <-.
    repeat split; try reflexivity; try (unfold n; lia). intros m0 b0 Q. injection Q as <- <-. exact Sb.
  - cbn [l_dofs l_d2e l_cons l_A l_b l_b_constrained l_C l_d l_rec l_inv l_u] in E. injection E as <-.
    repeat split; try reflexivity; try (unfold n; lia). discriminate.
Qed.
Lemma add_all_state : forall dvs s, add_all dvs s =
  mkS (l_dofs s) (l_d2e s) (l_cons s ++ dirichlet dvs) (l_A s) (l_b s) (l_b_constrained s) (l_C s) (l_d s) (l_rec s) (l_inv s) (l_u s).
Proof.
  induction dvs as [|dv dvs IH]; intro s.
  - cbn. rewrite app_nil_r. destruct s; reflexivity.
  - cbn [add_all fold_left]. fold (add_all dvs). rewrite IH. unfold dirichlet. cbn [concat]. rewrite map_app.
    unfold add_dirichlet_constraint. cbn. rewrite <- app_assoc. reflexivity.
Qed.

Lemma set_rhs_ok : forall n m b s, whole n s -> shape n m b = true -> set_rhs (Some (m, b)) s =
  Ok (mkS (l_dofs s) (l_d2e s) (l_cons s) (l_A s) (Some (m, b)) false (l_C s) (l_d s) (l_rec s) (l_inv s) (l_u s)).
Proof. intros n m b s W Sh. unfold set_rhs. rewrite (whole_n n s W), Sh. reflexivity. Qed.

(** The common part of C40 and C42: one call of solve_system on a new system *)
Lemma new_system : forall solver n A hs dvs ob ob' m b factor s0,
  proper n hs (dirichlet dvs) -> one_load b m hs ->
  linear_system (seq 0 n) hs (Some A) ob = Ok s0 ->
  (ob' = Some (m, b) /\ shape n m b = true \/ ob' = None /\ ob = Some (m, b)) ->
  let C := Cmat n (hs ++ dirichlet dvs) in
  let ks := map c_dof (hs ++ dirichlet dvs) in
  let A' := scaled n (csteps n C A ks) ks in
  exists d b' ci,
   (forall i, ~ In i ks -> nth i d 0 = 0) /\
   (forall i, In i ks -> exists c, In c (hs ++ dirichlet dvs) /\ c_dof c = i /\ nth i d 0 = c_aff c) /\
   shape n m b' = true /\
   (forall j, (j < m)%nat -> rhs_inv n C A (map c_dof hs) (map c_dof (dirichlet dvs)) d (column b j) ks (column b' j)) /\
   solve_system solver ob' factor (add_all dvs s0) =
     match solver A' m b' with
     | None => Err GenericException
     | Some u => Ok (mkS (l_dofs s0) (l_d2e s0) (hs ++ dirichlet dvs) (Some A') (Some (m, b')) true (Some C) d (recs n C A ks) ci
                       (Some (m, resolve n m C d u)))
     end.
Proof.
  intros solver n A hs dvs ob ob' m b factor s0 P One E O C ks A'.
  destruct (system_state _ _ _ _ _ E) as [W [SA [Ec [EA [EC [EI [Eb [Ef Sb]]]]]]]].
  set (s1 := mkS (l_dofs s0) (l_d2e s0) (hs ++ dirichlet dvs) (Some A) (Some (m, b)) false None (l_d s0) (l_rec s0) None (l_u s0)).
  assert (Shb : shape n m b = true) by (destruct O as [[_ S]|[_ O]]; [exact S|apply Sb; exact O]).
  assert (X : solve_system solver ob' factor (add_all dvs s0) = solve_system solver None factor s1).
  { rewrite add_all_state, Ec, EA, EC, EI, Ef, Eb. destruct O as [[-> _]|[-> O]].
    - unfold solve_system at 1. rewrite (set_rhs_ok n) by (exact W || exact Shb). reflexivity.
    - rewrite O. reflexivity. }
  rewrite X.
  destruct (first_run n s1 solver factor A m b hs (dirichlet dvs)) as [d [b' [ci Q]]]; try assumption; try reflexivity.
  exists d, b', ci. exact Q.
Qed.

(** ** C40: the solution satisfies the constraints and the equations.

    For every matrix, right hand side, list of hanging nodes and calls of
    add_dirichlet_constraint: if solve_system succeeds, each column of its
    solution solves the constrained problem (hanging nodes after the first
    carry no load: see C40_two_hanging_refuted). *)
Theorem C40_solution_partial : forall solver n A hs dvs ob ob' m b factor s0 s,
  exact_solver n solver ->
  proper n hs (dirichlet dvs) -> one_load b m hs ->
  linear_system (seq 0 n) hs (Some A) ob = Ok s0 ->
  (ob' = Some (m, b) /\ shape n m b = true \/ ob' = None /\ ob = Some (m, b)) ->
  solve_system solver ob' factor (add_all dvs s0) = Ok s ->
  exists u, l_u s = Some (m, u) /\ shape n m u = true /\
    forall j, (j < m)%nat -> solves n A (column b j) (hs ++ dirichlet dvs) (column u j).
Proof.
  intros solver n A hs dvs ob ob' m b factor s0 s Ex P One E O E'.
  destruct (new_system solver n A hs dvs ob ob' m b factor s0 P One E O) as [d [b' [ci [D0 [D1 [Sb [I R]]]]]]].
  rewrite R in E'. clear R.
  set (C := Cmat n (hs ++ dirichlet dvs)) in *. set (ks := map c_dof (hs ++ dirichlet dvs)) in *.
  set (M := csteps n C A ks) in *.
  destruct (solver (scaled n M ks) m b') as [u|] eqn:Eu; [|discriminate]. injection E' as <-. cbn [l_u].
  destruct (Ex _ _ _ _ Eu) as [Su Hu].
  exists (resolve n m C d u). split; [reflexivity|]. split; [apply shape_tab|]. intros j Hj.
  assert (Mk : ks = map c_dof hs ++ map c_dof (dirichlet dvs)) by apply map_app.
  assert (D0' : forall i, ~ In i (map c_dof hs ++ map c_dof (dirichlet dvs)) -> nth i d 0 = 0) by (rewrite <- Mk; exact D0).
  assert (D1' : forall i, In i (map c_dof hs ++ map c_dof (dirichlet dvs)) ->
     exists c, In c (hs ++ dirichlet dvs) /\ c_dof c = i /\ nth i d 0 = c_aff c) by (rewrite <- Mk; exact D1).
  apply (resolved_solves n C A hs (dirichlet dvs) P eq_refl d) with (m := m) (x := scale n M ks (column u j)) (bfin := column b' j);
    try assumption.
  - rewrite <- Mk. apply I. exact Hj.
  - intros i Hi. rewrite <- Mk. fold M. rewrite <- mulv_scaled by exact Hi. apply Hu; assumption.
  - apply (resolve_ok n C hs (dirichlet dvs) P eq_refl d); try assumption.
    intros i Hi N. unfold scale. rewrite Mk. apply mem_notIn in N. rewrite N. unfold column. ring.
Qed.
Print Assumptions C40_solution_partial.

(** Without hanging nodes there is no restriction on the load *)
Theorem C40_dirichlet : forall solver n A dvs ob ob' m b factor s0 s,
  exact_solver n solver ->
  (forall p, In p (concat dvs) -> (fst p < n)%nat) ->
  (forall p q, In p (concat dvs) -> In q (concat dvs) -> fst p = fst q -> snd p == snd q) ->
  linear_system (seq 0 n) [] (Some A) ob = Ok s0 ->
  (ob' = Some (m, b) /\ shape n m b = true \/ ob' = None /\ ob = Some (m, b)) ->
  solve_system solver ob' factor (add_all dvs s0) = Ok s ->
  exists u, l_u s = Some (m, u) /\ shape n m u = true /\ forall j, (j < m)%nat ->
    (forall p, In p (concat dvs) -> entry u (fst p) j == snd p) /\
    (forall i, (i < n)%nat -> (forall p, In p (concat dvs) -> fst p <> i) -> mulv n A (column u j) i == entry b i j).
Proof.
  intros solver n A dvs ob ob' m b factor s0 s Ex R Co E O E'.
  assert (P : proper n [] (dirichlet dvs)).
  { assert (X : forall c, In c (dirichlet dvs) -> exists p, c = mkC (fst p) [] (snd p) /\ In p (concat dvs)).
    { intros c I. apply in_map_iff in I. destruct I as [p [Q I]]. exists p. split; [symmetry; exact Q|exact I]. }
    split; [|split; [constructor|split; [intros ? ? ? []|split; [constructor|split; [|split; [|intros ? ? []]]]]]].
    - cbn [app]. apply Forall_forall. intros c I. destruct (X c I) as [p [-> J]]. split; [apply R; exact J|intros ? []].
    - apply Forall_forall. intros c I. destruct (X c I) as [p [-> J]]. reflexivity.
    - intros c c' I I' Q. destruct (X c I) as [p [-> J]]. destruct (X c' I') as [p' [-> J']]. apply Co; assumption. }
  destruct (C40_solution_partial solver n A [] dvs ob ob' m b factor s0 s Ex P) as [u [U [Su S]]]; try assumption.
  { intros c j []. }
  exists u. split; [exact U|]. split; [exact Su|]. intros j Hj. destruct (S j Hj) as [F G]. split.
  - intros p I. assert (Ic : In (mkC (fst p) [] (snd p)) ([] ++ dirichlet dvs)) by (apply (in_map (fun p => mkC (fst p) [] (snd p))); exact I).
    specialize (F _ Ic). unfold fulfils, column in F. cbn in F. rewrite F. ring.
  - intros i Hi N. specialize (G (ek i)). rewrite !dot_ek in G by exact Hi. apply G.
    intros c Ic. apply in_map_iff in Ic. destruct Ic as [p [<- Ic]]. unfold homogeneous. cbn. unfold ek.
    destruct (Nat.eqb_spec (fst p) i); [|reflexivity]. exfalso. apply (N p Ic). assumption.
Qed.
Print Assumptions C40_dirichlet.

(** solve_system fails only if the external solver does *)
Theorem C40_total : forall solver n A hs dvs m b factor,
  (0 < n)%nat -> shape n n A = true -> shape n m b = true -> proper n hs (dirichlet dvs) -> one_load b m hs ->
  exists s0, linear_system (seq 0 n) hs (Some A) None = Ok s0 /\
    ((exists s, solve_system solver (Some (m, b)) factor (add_all dvs s0) = Ok s) \/
     (solve_system solver (Some (m, b)) factor (add_all dvs s0) = Err GenericException /\
      exists A' b', shape n n A' = true /\ shape n m b' = true /\ solver A' m b' = None)).
Proof.
  intros solver n A hs dvs m b factor Hn SA Sb P One.
  assert (L : exists s0, linear_system (seq 0 n) hs (Some A) None = Ok s0).
  { unfold linear_system. rewrite make_d2e_seq by exact Hn. cbn [bind]. unfold set_matrix, n_eqns. cbn [l_dofs].
    rewrite seq_length, SA. cbn [bind set_rhs]. eexists. reflexivity. }
  destruct L as [s0 E]. exists s0. split; [exact E|].
  destruct (new_system solver n A hs dvs None (Some (m, b)) m b factor s0 P One E) as [d [b' [ci [_ [_ [Sb' [_ R]]]]]]].
  { left. split; [reflexivity|exact Sb]. }
  rewrite R. destruct (solver _ m b') eqn:Q.
  - left. eexists. reflexivity.
  - right. split; [reflexivity|]. exists (scaled n (csteps n (Cmat n (hs ++ dirichlet dvs)) A (map c_dof (hs ++ dirichlet dvs))) (map c_dof (hs ++ dirichlet dvs))), b'.
    split; [apply shape_tab|]. split; [exact Sb'|exact Q].
Qed.
Print Assumptions C40_total.


Ltac ranges := repeat (apply Forall_cons; [split; [cbn; lia|let p := fresh "p" in let Ip := fresh "Ip" in
   intros p Ip; cbn in Ip; repeat (destruct Ip as [<-|Ip]; [cbn; lia|]); destruct Ip]|]); apply Forall_nil.
Definition ok_val {X} (r : res X) (d : X) : X := match r with Ok x => x | Err _ => d end.
Definition no_sys : lsys := mkS [] [] [] None None false None [] [] None None.

(** x2 = (x0 + x1)/2 is a hanging node, x0 = 1 a Dirichlet condition: x = (1, 2, 3/2) *)
Example C40_case :
  let hs := [mkC 2 [(0%nat, 1 # 2); (1%nat, 1 # 2)] 0] in
  let A := [[2; 0; 0]; [0; 2; 0]; [0; 0; 4]] in
  let b := [[5]; [3]; [8]] in
  let s0 := ok_val (linear_system (seq 0 3) hs (Some A) None) no_sys in
  let s := ok_val (solve_system (guess 3 [[0]; [2]; [0]]) (Some (1%nat, b)) false (add_all [[(0%nat, 1)]] s0)) no_sys in
  proper 3 hs (dirichlet [[(0%nat, 1)]]) /\ one_load b 1 hs /\
  linear_system (seq 0 3) hs (Some A) None = Ok s0 /\
  solve_system (guess 3 [[0]; [2]; [0]]) (Some (1%nat, b)) false (add_all [[(0%nat, 1)]] s0) = Ok s /\
  exists u, l_u s = Some (1%nat, u) /\ entry u 0 0 == 1 /\ entry u 1 0 == 2 /\ entry u 2 0 == 3 # 2.
Proof.
  cbv zeta. split; [|split; [|split; [vm_compute; reflexivity|split; [vm_compute; reflexivity|]]]].
  - repeat split; cbn.
    + ranges.
    + repeat constructor. intros [].
    + intros c c' p [<-|[]] [<-|[]] [<-|[<-|[]]]; cbn; discriminate.
    + repeat constructor.
    + repeat constructor.
    + intros c c' [<-|[]] [<-|[]] _. reflexivity.
    + intros c c' [<-|[]] [<-|[]]. cbn. discriminate.
  - intros c j [].
  - eexists. split; [vm_compute; reflexivity|]. repeat split; vm_compute; reflexivity.
Qed.

(** *** Refuted: with two hanging nodes the load at the second one is lost
    (constrain_rhs zeroes the load at all constrained dofs in its first pass,
    before the later passes distribute it, 743-749). *)
Theorem C40_two_hanging_refuted : exists n A b hs solver s0 s u,
  exact_solver n solver /\ proper n hs [] /\
  linear_system (seq 0 n) hs (Some A) None = Ok s0 /\
  solve_system solver (Some (1%nat, b)) false s0 = Ok s /\ l_u s = Some (1%nat, u) /\
  ~ solves n A (column b 0) hs (column u 0).
Proof.
  set (hs := [mkC 2 [(0%nat, 1 # 2); (1%nat, 1 # 2)] 0; mkC 3 [(0%nat, 1 # 2); (1%nat, 1 # 2)] 0]).
  set (A := [[1; 0; 0; 0]; [0; 1; 0; 0]; [0; 0; 1; 0]; [0; 0; 0; 1]]).
  set (b := [[0]; [0]; [1]; [1]]).
  set (s0 := ok_val (linear_system (seq 0 4) hs (Some A) None) no_sys).
  set (s := ok_val (solve_system (guess 4 [[1 # 4]; [1 # 4]; [0]; [0]]) (Some (1%nat, b)) false s0) no_sys).
  exists 4%nat, A, b, hs, (guess 4 [[1 # 4]; [1 # 4]; [0]; [0]]), s0, s.
  eexists. split; [apply guess_exact|]. split; [|split; [vm_compute; reflexivity|split; [vm_compute; reflexivity|split; [vm_compute; reflexivity|]]]].
  - repeat split; cbn.
    + ranges.
    + repeat constructor; cbn; [intros [|[]]; discriminate|intros []].
    + intros c c' p [<-|[<-|[]]] [<-|[<-|[]]] [<-|[<-|[]]]; cbn; discriminate.
    + repeat constructor.
    + constructor.
    + intros c c' [].
    + intros c c' _ [].
  - intros [_ S]. specialize (S (fun i => nth i [1; 0; 1 # 2; 1 # 2] 0)).
    assert (X : forall c, In c hs -> homogeneous (fun i => nth i [1; 0; 1 # 2; 1 # 2] 0) c).
    { intros c [<-|[<-|[]]]; vm_compute; reflexivity. }
    specialize (S X). vm_compute in S. discriminate.
Qed.
Print Assumptions C40_two_hanging_refuted.

(** *** Refuted: a hanging node supported by another hanging node does not get
    the interpolated value (resolve_constraints applies C once, 789). *)
Theorem C40_chain_refuted : exists n A b hs solver s0 s u c,
  exact_solver n solver /\ NoDup (map c_dof hs) /\ Forall (in_range n) hs /\
  linear_system (seq 0 n) hs (Some A) None = Ok s0 /\
  solve_system solver (Some (1%nat, b)) false s0 = Ok s /\ l_u s = Some (1%nat, u) /\
  In c hs /\ ~ fulfils (column u 0) c.
Proof.
  set (hs := [mkC 1 [(2%nat, 1)] 0; mkC 2 [(0%nat, 1)] 0]).
  set (A := [[1; 0; 0]; [0; 1; 0]; [0; 0; 1]]).
  set (b := [[1]; [0]; [0]]).
  set (s0 := ok_val (linear_system (seq 0 3) hs (Some A) None) no_sys).
  set (s := ok_val (solve_system (guess 3 [[1 # 3]; [0]; [0]]) (Some (1%nat, b)) false s0) no_sys).
  exists 3%nat, A, b, hs, (guess 3 [[1 # 3]; [0]; [0]]), s0, s.
  eexists. exists (mkC 1 [(2%nat, 1)] 0). split; [apply guess_exact|].
  split; [cbn; repeat constructor; cbn; [intros [|[]]; discriminate|intros []]|].
  split; [ranges|].
  split; [vm_compute; reflexivity|split; [vm_compute; reflexivity|split; [vm_compute; reflexivity|split; [left; reflexivity|]]]].
  intro F. vm_compute in F. discriminate.
Qed.
Print Assumptions C40_chain_refuted.

(** *** Refuted: on a submesh (dofs not 0..n-1) the Dirichlet value goes to
    another dof, or an IndexError is raised: d[c_dofs] (345) and zc[c_dofs]
    (747) are indexed by dofs instead of equations. *)
Theorem C40_submesh_refuted : exists dofs A b solver s0 s u,
  exact_solver 3 solver /\ dofs = [0; 2; 3]%nat /\
  linear_system dofs [] (Some A) None = Ok s0 /\
  solve_system solver (Some (1%nat, b)) false (add_all [[(2%nat, 5)]] s0) = Ok s /\ l_u s = Some (1%nat, u) /\
  (* the solution at dof 2, equation 1, is not 5 *)
  dof2eqn s0 2 = Ok 1%nat /\ entry u 1 0 == 0 /\ dof2eqn s0 3 = Ok 2%nat /\ entry u 2 0 == 5.
Proof.
  set (A := [[1; 0; 0]; [0; 1; 0]; [0; 0; 1]]). set (b := [[1]; [1]; [1]]).
  set (s0 := ok_val (linear_system [0; 2; 3]%nat [] (Some A) None) no_sys).
  set (s := ok_val (solve_system (guess 3 [[1]; [1]; [0]]) (Some (1%nat, b)) false (add_all [[(2%nat, 5)]] s0)) no_sys).
  exists [0; 2; 3]%nat, A, b, (guess 3 [[1]; [1]; [0]]), s0, s. eexists.
  split; [apply guess_exact|]. split; [reflexivity|]. split; [vm_compute; reflexivity|]. split; [vm_compute; reflexivity|].
  split; [vm_compute; reflexivity|]. repeat split; vm_compute; reflexivity.
Qed.
Print Assumptions C40_submesh_refuted.
Theorem C40_submesh_error : forall solver dofs hs dvs A ob m b f s0 c,
  linear_system dofs hs (Some A) ob = Ok s0 -> In c (hs ++ dirichlet dvs) -> (length dofs <= c_dof c)%nat ->
  (forall c p, In c (hs ++ dirichlet dvs) -> In (c_dof c) dofs /\ (In p (c_supp c) -> In (fst p) dofs)) ->
  shape (length dofs) m b = true ->
  solve_system solver (Some (m, b)) f (add_all dvs s0) = Err IndexError.
Proof.
  intros solver dofs hs dvs A ob m b f s0 c E Ic Lc Hin Sb.
  (* the fields of s0 *)
  unfold linear_system in E. destruct (make_d2e dofs) as [d2e|] eqn:Ed; [|discriminate]. cbn [bind] in E.
  unfold set_matrix, n_eqns in E. cbn [l_dofs] in E. destruct (shape _ _ A) eqn:SA in E; [|discriminate]. cbn [bind] in E.
  assert (S0 : exists ob, s0 = mkS dofs d2e hs (Some A) ob false None [] [] None None).
  { unfold set_rhs, n_eqns in E. cbn [l_dofs l_d2e l_cons l_A l_b l_b_constrained l_C l_d l_rec l_inv l_u] in E.
    destruct ob as [[m' b']|]; [destruct (shape (length dofs) m' b'); [|discriminate]|]; injection E as <-; eexists; reflexivity. }
  destruct S0 as [ob0 ->]. rewrite add_all_state. cbn [l_dofs l_d2e l_cons l_A l_b l_b_constrained l_C l_d l_rec l_inv l_u].
  unfold solve_system, set_rhs, n_eqns. cbn [l_dofs]. rewrite Sb. cbn [bind l_dofs l_d2e l_cons l_A l_b l_b_constrained l_C l_d l_rec l_inv l_u].
  unfold set_constraint_relation, n_eqns. cbn [l_dofs l_cons].
  set (s1 := mkS dofs d2e (hs ++ dirichlet dvs) (Some A) (Some (m, b)) false None [] [] None None).
  assert (Dx : forall d, In d dofs -> exists k, dof2eqn s1 d = Ok k).
  { intros d Id. unfold dof2eqn, s1. cbn [l_d2e].
    destruct (nth_error d2e d) as [k|] eqn:Ek; [eexists; reflexivity|]. exfalso. apply nth_error_None in Ek.
    unfold make_d2e in Ed. destruct dofs as [|d0 ds]; [destruct Id|]. remember (d0 :: ds) as l.
    assert (G : forall l acc r, fold_res assign_eqn l acc = Ok r -> length (fst r) = length (fst acc) /\ forall d, In d l -> (d < length (fst acc))%nat).
    { clear. induction l as [|x l IH]; intros acc r E; [cbn in E; injection E as <-; split; [reflexivity|intros d []]|].
      cbn [fold_res] in E. unfold assign_eqn in E at 1. destruct (Nat.ltb_spec x (length (fst acc))); [|discriminate].
      cbn [bind] in E. apply IH in E. cbn [fst] in E. rewrite set_nth_length in E. destruct E as [E1 E2]. split; [exact E1|].
      intros d [<-|I]; [assumption|apply E2; exact I]. }
    destruct (fold_res assign_eqn l (repeat 0%nat (S (last l 0%nat)), 0%nat)) as [r|] eqn:Er; [|discriminate].
    cbn in Ed. injection Ed as <-. destruct (G _ _ _ Er) as [G1 G2]. specialize (G2 d Id). lia. }
  assert (MR : forall X Y (g : X -> res Y) l, (forall x, In x l -> exists y, g x = Ok y) -> exists ys, map_res g l = Ok ys).
  { clear. intros X Y g. induction l as [|x l IH]; intro P; [eexists; reflexivity|]. cbn.
    destruct (P x (or_introl eq_refl)) as [y ->]. cbn. destruct IH as [ys ->]; [intros; apply P; right; assumption|]. eexists. reflexivity. }
  assert (T : exists t, triplets s1 = Ok t).
  { unfold triplets.
    destruct (MR _ _ (fun c0 => map_res (fun p => bind (dof2eqn s1 (c_dof c0)) (fun r => bind (dof2eqn s1 (fst p)) (fun k => Ok (r, k, snd p)))) (c_supp c0)) (l_cons s1)) as [ys E1].
    - intros c0 I0. apply MR. intros p Ip. destruct (Hin c0 p I0) as [Q1 Q2]. destruct (Dx _ Q1) as [k1 ->]. cbn [bind].
      destruct (Dx _ (Q2 Ip)) as [k2 ->]. cbn. eexists. reflexivity.
    - rewrite E1. cbn. eexists. reflexivity. }
  destruct T as [t ->]. cbn [bind].
  destruct (MR _ _ (fun c0 => dof2eqn s1 (c_dof c0)) (hs ++ dirichlet dvs)) as [ks ->].
  { intros c0 I0. destruct (Hin c0 (0%nat, 0) I0) as [Q1 _]. apply Dx. exact Q1. }
  cbn [bind].
  assert (AE : forall l d, length d = length dofs -> In c l -> fold_res assign_aff l d = Err IndexError).
  { clear - Lc. induction l as [|x l IH]; intros d L I; [destruct I|]. cbn [fold_res]. unfold assign_aff at 1.
    destruct (Nat.ltb_spec (c_dof x) (length d)) as [Q|Q]; [|reflexivity]. cbn [bind]. apply IH; [rewrite set_nth_length; exact L|].
    destruct I as [<-|I]; [lia|exact I]. }
  rewrite AE; [reflexivity|apply repeat_length|exact Ic].
Qed.
Print Assumptions C40_submesh_error.

(** ** C41: further right hand sides.

    With homogeneous Dirichlet conditions any number of calls, in any mix of
    factor flags, each returns a solution for its own right hand side. *)
Theorem C41_repeat_partial : forall solver n A dvs ob l s0 us,
  exact_solver n solver ->
  (forall p, In p (concat dvs) -> (fst p < n)%nat /\ snd p == 0) ->
  linear_system (seq 0 n) [] (Some A) ob = Ok s0 ->
  solve_all solver l (add_all dvs s0) = Ok us ->
  Forall2 (fun (q : nat * mat * bool) o => exists u, o = Some (fst (fst q), u) /\
     forall j, (j < fst (fst q))%nat -> solves n A (column (snd (fst q)) j) (dirichlet dvs) (column u j)) l us.
Proof.
  intros solver n A dvs ob l s0 us Ex R E E'.
  assert (X : forall c, In c (dirichlet dvs) -> exists p, c = mkC (fst p) [] (snd p) /\ In p (concat dvs)).
  { intros c I. apply in_map_iff in I. destruct I as [p [Q I]]. exists p. split; [symmetry; exact Q|exact I]. }
  assert (P : proper n [] (dirichlet dvs)).
  { split; [|split; [constructor|split; [intros ? ? ? []|split; [constructor|split; [|split; [|intros ? ? []]]]]]].
    - cbn [app]. apply Forall_forall. intros c I. destruct (X c I) as [p [-> J]]. split; [apply R; exact J|intros ? []].
    - apply Forall_forall. intros c I. destruct (X c I) as [p [-> J]]. reflexivity.
    - intros c c' I I' Q. destruct (X c I) as [p [-> J]]. destruct (X c' I') as [p' [-> J']]. cbn.
      rewrite (proj2 (R p J)), (proj2 (R p' J')). reflexivity. }
  destruct (system_state _ _ _ _ _ E) as [W [SA [Ec [EA [EC [EI [Eb [Ef Sb]]]]]]]].
  apply (all_calls n A (dirichlet dvs) P) with (solver := solver) (s := add_all dvs s0); try assumption.
  - apply Forall_forall. intros c I. destruct (X c I) as [p [-> J]]. apply R. exact J.
  - rewrite add_all_state. split; [exact W|]. split; [cbn; rewrite Ec; reflexivity|]. cbn [l_A l_C l_inv l_d].
    rewrite EA, EC, EI. split; [exists A; split; [reflexivity|]; intros i j _ _ _ _; reflexivity|]. split; constructor.
Qed.
Print Assumptions C41_repeat_partial.

Definition guess2 (n : nat) (c1 c2 : mat) (A : mat) (m : nat) (b : mat) : option mat :=
  match guess n c1 A m b with Some u => Some u | None => guess n c2 A m b end.
Lemma guess2_exact : forall n c1 c2, exact_solver n (guess2 n c1 c2).
Proof.
  intros n c1 c2 A m b u E. unfold guess2 in E. destruct (guess n c1 A m b) eqn:Q.
  - injection E as <-. apply (guess_exact n c1). exact Q.
  - apply (guess_exact n c2). exact E.
Qed.

Example C41_case :
  let A := [[2; -1]; [-1; 2]] in
  let s0 := ok_val (linear_system (seq 0 2) [] (Some A) None) no_sys in
  let us := ok_val (solve_all (guess2 2 [[0]; [1]] [[0]; [3]]) [(1%nat, [[0]; [2]], true); (1%nat, [[0]; [6]], true)] (add_all [[(0%nat, 0)]] s0)) [] in
  linear_system (seq 0 2) [] (Some A) None = Ok s0 /\
  solve_all (guess2 2 [[0]; [1]] [[0]; [3]]) [(1%nat, [[0]; [2]], true); (1%nat, [[0]; [6]], true)] (add_all [[(0%nat, 0)]] s0) = Ok us /\
  length us = 2%nat.
Proof. cbv zeta. split; [vm_compute; reflexivity|]. split; vm_compute; reflexivity. Qed.

(** *** Refuted for other Dirichlet values: the second call uses the columns of
    the matrix already constrained, so the boundary values are lost. *)
Theorem C41_nonhomogeneous_refuted : exists n A b dv solver s0 s1 s2 u1 u2,
  exact_solver n solver /\
  linear_system (seq 0 n) [] (Some A) None = Ok s0 /\
  solve_system solver (Some (1%nat, b)) false (add_all [dv] s0) = Ok s1 /\ l_u s1 = Some (1%nat, u1) /\
  solve_system solver (Some (1%nat, b)) false s1 = Ok s2 /\ l_u s2 = Some (1%nat, u2) /\
  solves n A (column b 0) (dirichlet [dv]) (column u1 0) /\ ~ solves n A (column b 0) (dirichlet [dv]) (column u2 0).
Proof.
  set (A := [[2; -1]; [-1; 2]]). set (b := [[0]; [1]]). set (g := guess2 2 [[0]; [1]] [[0]; [1 # 2]]).
  set (s0 := ok_val (linear_system (seq 0 2) [] (Some A) None) no_sys).
  set (s1 := ok_val (solve_system g (Some (1%nat, b)) false (add_all [[(0%nat, 1)]] s0)) no_sys).
  set (s2 := ok_val (solve_system g (Some (1%nat, b)) false s1) no_sys).
  assert (E0 : linear_system (seq 0 2) [] (Some A) None = Ok s0) by (vm_compute; reflexivity).
  assert (E1 : solve_system g (Some (1%nat, b)) false (add_all [[(0%nat, 1)]] s0) = Ok s1) by (vm_compute; reflexivity).
  assert (U1 : exists u, l_u s1 = Some (1%nat, u)) by (eexists; vm_compute; reflexivity).
  destruct U1 as [u1 U1].
  exists 2%nat, A, b, [(0%nat, 1)], g, s0, s1, s2, u1. eexists.
  split; [apply guess2_exact|]. split; [exact E0|]. split; [exact E1|]. split; [exact U1|].
  split; [vm_compute; reflexivity|]. split; [vm_compute; reflexivity|]. split.
  - destruct (C40_solution_partial g 2 A [] [[(0%nat, 1)]] None (Some (1%nat, b)) 1 b false s0 s1) as [u [U [_ S]]]; try assumption.
    + apply guess2_exact.
    + repeat split; cbn.
      * ranges.
      * constructor.
      * intros ? ? ? [].
      * constructor.
      * repeat constructor.
      * intros c c' [<-|[]] [<-|[]] _. reflexivity.
      * intros ? ? [].
    + intros c j [].
    + left. split; reflexivity.
    + rewrite U1 in U. injection U as <-. apply (S 0%nat). lia.
  - intros [_ S]. specialize (S (fun i => nth i [0; 1] 0)).
    assert (X : forall c, In c (dirichlet [[(0%nat, 1)]]) -> homogeneous (fun i => nth i [0; 1] 0) c).
    { intros c [<-|[]]; vm_compute; reflexivity. }
    specialize (S X). vm_compute in S. discriminate.
Qed.
Print Assumptions C41_nonhomogeneous_refuted.

(** *** Refuted with a hanging node: the second call changes the matrix again *)
Theorem C41_hanging_refuted : exists n A b hs solver s0 s1 s2 u2,
  exact_solver n solver /\ proper n hs [] /\ one_load b 1 hs /\
  linear_system (seq 0 n) hs (Some A) None = Ok s0 /\
  solve_system solver (Some (1%nat, b)) false s0 = Ok s1 /\
  solve_system solver (Some (1%nat, b)) false s1 = Ok s2 /\ l_u s2 = Some (1%nat, u2) /\
  ~ solves n A (column b 0) hs (column u2 0).
Proof.
  set (A := [[1; 0]; [0; 1]]). set (b := [[1]; [0]]). set (g := guess2 2 [[1 # 2]; [0]] [[1 # 4]; [0]]).
  set (hs := [mkC 1 [(0%nat, 1)] 0]).
  set (s0 := ok_val (linear_system (seq 0 2) hs (Some A) None) no_sys).
  set (s1 := ok_val (solve_system g (Some (1%nat, b)) false s0) no_sys).
  set (s2 := ok_val (solve_system g (Some (1%nat, b)) false s1) no_sys).
  exists 2%nat, A, b, hs, g, s0, s1, s2. eexists.
  split; [apply guess2_exact|]. split.
  { repeat split; cbn.
    - ranges.
    - repeat constructor. intros [].
    - intros c c' p [<-|[]] [<-|[]] [<-|[]]; cbn; discriminate.
    - repeat constructor.
    - constructor.
    - intros ? ? [].
    - intros ? ? _ []. }
  split; [intros c j []|]. split; [vm_compute; reflexivity|]. split; [vm_compute; reflexivity|]. split; [vm_compute; reflexivity|].
  split; [vm_compute; reflexivity|].
  intros [_ S]. specialize (S (fun _ => 1)).
  assert (X : forall c, In c hs -> homogeneous (fun _ => 1) c) by (intros c [<-|[]]; vm_compute; reflexivity).
  specialize (S X). vm_compute in S. discriminate.
Qed.
Print Assumptions C41_hanging_refuted.

(** *** Refuted: a Dirichlet condition added after the first call is imposed
    with the value 0 (C and d are computed once, 842-843). *)
Theorem C41_late_constraint_refuted : exists n A b solver s0 s1 s2 u2,
  exact_solver n solver /\ linear_system (seq 0 n) [] (Some A) None = Ok s0 /\
  solve_system solver (Some (1%nat, b)) false s0 = Ok s1 /\
  solve_system solver (Some (1%nat, b)) false (add_dirichlet_constraint [(0%nat, 1)] s1) = Ok s2 /\
  l_u s2 = Some (1%nat, u2) /\ entry u2 0 0 == 0.
Proof.
  set (A := [[1; 0]; [0; 1]]). set (b := [[3]; [2]]). set (g := guess2 2 [[3]; [2]] [[0]; [2]]).
  set (s0 := ok_val (linear_system (seq 0 2) [] (Some A) None) no_sys).
  set (s1 := ok_val (solve_system g (Some (1%nat, b)) false s0) no_sys).
  set (s2 := ok_val (solve_system g (Some (1%nat, b)) false (add_dirichlet_constraint [(0%nat, 1)] s1)) no_sys).
  exists 2%nat, A, b, g, s0, s1, s2. eexists.
  split; [apply guess2_exact|]. repeat (split; [vm_compute; reflexivity|]). vm_compute. reflexivity.
Qed.
Print Assumptions C41_late_constraint_refuted.

(** ** C42: the constrained matrix is symmetric positive definite if the
    problem is, so the external solver (and a Cholesky factorization) applies. *)
Theorem C42_spd : forall n A hs dvs ob s0,
  proper n hs (dirichlet dvs) -> NoDup (map fst (concat dvs)) ->
  linear_system (seq 0 n) hs (Some A) ob = Ok s0 ->
  symmetric n A -> positive n A (hs ++ dirichlet dvs) ->
  exists s1 s2 A', set_constraint_relation (add_all dvs s0) = Ok s1 /\ constrain_matrix s1 = Ok s2 /\ l_A s2 = Some A' /\
    symmetric n A' /\ positive n A' [] /\ nonsingular n A'.
Proof.
  intros n A hs dvs ob s0 P Nd E Sy Po.
  destruct (system_state _ _ _ _ _ E) as [W [SA [Ec [EA [EC [EI [Eb [Ef Sb]]]]]]]].
  rewrite add_all_state. rewrite Ec, EA.
  set (s := mkS _ _ _ _ _ _ _ _ _ _ _).
  assert (Ws : whole n s) by exact W.
  assert (F : Forall (in_range n) (l_cons s)) by apply P.
  destruct (scr_ok n s Ws F) as [d [E1 _]]. rewrite E1.
  eexists. eexists. exists (scaled n (csteps n (Cmat n (hs ++ dirichlet dvs)) A (map c_dof (hs ++ dirichlet dvs))) (map c_dof (hs ++ dirichlet dvs))).
  split; [reflexivity|]. split; [apply (cm_ok n _ A (Cmat n (hs ++ dirichlet dvs))); [exact W|exact F|reflexivity|reflexivity]|].
  split; [reflexivity|]. rewrite map_app.
  assert (Nd' : NoDup (map c_dof (dirichlet dvs))) by (unfold dirichlet; rewrite map_map; exact Nd).
  assert (Pos : positive n (scaled n (csteps n (Cmat n (hs ++ dirichlet dvs)) A (map c_dof hs ++ map c_dof (dirichlet dvs))) (map c_dof hs ++ map c_dof (dirichlet dvs))) []).
  { apply scaled_positive; assumption. }
  split; [apply scaled_symmetric; assumption|]. split; [exact Pos|]. apply positive_nonsingular. exact Pos.
Qed.
Print Assumptions C42_spd.

(** A solver that handles nonsingular matrices then always succeeds *)
Theorem C42_solved : forall solver n A hs dvs m b factor s0,
  (forall M m b, nonsingular n M -> solver M m b <> None) ->
  proper n hs (dirichlet dvs) -> NoDup (map fst (concat dvs)) -> one_load b m hs ->
  linear_system (seq 0 n) hs (Some A) None = Ok s0 -> shape n m b = true ->
  positive n A (hs ++ dirichlet dvs) ->
  exists s, solve_system solver (Some (m, b)) factor (add_all dvs s0) = Ok s.
Proof.
  intros solver n A hs dvs m b factor s0 Co P Nd One E Sb Po.
  destruct (new_system solver n A hs dvs None (Some (m, b)) m b factor s0 P One E) as [d [b' [ci [_ [_ [_ [_ R]]]]]]].
  { left. split; [reflexivity|exact Sb]. }
  rewrite R. destruct (solver _ m b') eqn:Q; [eexists; reflexivity|exfalso].
  revert Q. apply Co. apply positive_nonsingular. rewrite map_app.
  assert (Nd' : NoDup (map c_dof (dirichlet dvs))) by (unfold dirichlet; rewrite map_map; exact Nd).
  apply scaled_positive; assumption.
Qed.
Print Assumptions C42_solved.

(** the stiffness matrix of three linear elements with one Dirichlet condition *)
Example C42_case : symmetric 3 [[1; -1; 0]; [-1; 2; -1]; [0; -1; 1]] /\
  positive 3 [[1; -1; 0]; [-1; 2; -1]; [0; -1; 1]] (dirichlet [[(0%nat, 7)]]) /\
  ~ positive 3 [[1; -1; 0]; [-1; 2; -1]; [0; -1; 1]] [].
Proof.
  split; [|split].
  - intros i j Hi Hj. destruct i as [|[|[|i]]]; [| | |lia]; (destruct j as [|[|[|j]]]; [| | |lia]); reflexivity.
  - intros x Hx [i [Hi Nz]].
    assert (X0 : x 0%nat == 0) by exact (Hx _ (or_introl eq_refl)).
    unfold dot, mulv, sum. cbn [seq map fold_right entry nth]. unfold entry. cbn [nth].
    assert (E : x 0%nat * (1 * x 0%nat + (-1 * x 1%nat + (0 * x 2%nat + 0))) +
       (x 1%nat * (-1 * x 0%nat + (2 * x 1%nat + (-1 * x 2%nat + 0))) +
       (x 2%nat * (0 * x 0%nat + (-1 * x 1%nat + (1 * x 2%nat + 0))) + 0)) ==
       x 1%nat * x 1%nat + (x 2%nat - x 1%nat) * (x 2%nat - x 1%nat)) by (rewrite X0; ring).
    rewrite E. clear E.
    assert (Sq : forall q, 0 <= q * q) by (intro q; unfold Qle, Qmult; cbn; nia).
    assert (Sp : forall q, ~ q == 0 -> 0 < q * q).
    { intros q N. destruct (Q_dec 0 (q * q)) as [[H|H]|H]; [exact H|specialize (Sq q); lra|].
      exfalso. apply N. symmetry in H. apply Qmult_integral in H. tauto. }
    pose proof (Sq (x 1%nat)). pose proof (Sq (x 2%nat - x 1%nat)).
    destruct (Qeq_dec (x 1%nat) 0) as [Z1|N1]; [|specialize (Sp _ N1); lra].
    assert (N2 : ~ x 2%nat - x 1%nat == 0).
    { intro Q. apply Nz. destruct i as [|[|[|i]]]; [exact X0|exact Z1|lra|lia]. }
    specialize (Sp _ N2). lra.
  - intro P. specialize (P (fun _ => 1)). assert (X : 0 < dot 3 (fun _ : nat => 1) (mulv 3 [[1; -1; 0]; [-1; 2; -1]; [0; -1; 1]] (fun _ => 1))).
    { apply P; [intros c []|]. exists 0%nat. split; [lia|discriminate]. }
    vm_compute in X. discriminate.
Qed.

(** *** Refuted if a Dirichlet condition is given twice (for instance by a second
    LinearSystem on the same dofhandler): the repeated entries are counted in
    the average of the diagonal (505-514), and the matrix may become singular. *)
Theorem C42_repeated_refuted : exists n A dvs s0 s1 s2 A',
  proper n [] (dirichlet dvs) /\ symmetric n A /\ positive n A [] /\
  linear_system (seq 0 n) [] (Some A) None = Ok s0 /\
  set_constraint_relation (add_all dvs s0) = Ok s1 /\ constrain_matrix s1 = Ok s2 /\ l_A s2 = Some A' /\ ~ nonsingular n A'.
Proof.
  set (A := [[1; 0; 0]; [0; 1 # 2; 0]; [0; 0; 1 # 2]]). set (dvs := [[(0%nat, 1)]; [(0%nat, 1)]]).
  set (s0 := ok_val (linear_system (seq 0 3) [] (Some A) None) no_sys).
  set (s1 := ok_val (set_constraint_relation (add_all dvs s0)) no_sys).
  set (s2 := ok_val (constrain_matrix s1) no_sys).
  exists 3%nat, A, dvs, s0, s1, s2. eexists. split; [|split; [|split; [|split; [vm_compute; reflexivity|split; [vm_compute; reflexivity|split; [vm_compute; reflexivity|split; [vm_compute; reflexivity|]]]]]]].
  - repeat split; cbn.
    + ranges.
    + constructor.
    + intros ? ? ? [].
    + constructor.
    + repeat constructor.
    + intros c c' [<-|[<-|[]]] [<-|[<-|[]]] _; reflexivity.
    + intros ? ? [].
  - intros i j Hi Hj. destruct i as [|[|[|i]]]; [| | |lia]; (destruct j as [|[|[|j]]]; [| | |lia]); reflexivity.
  - intros x _ [i [Hi Nz]]. unfold dot, mulv, sum. cbn [seq map fold_right]. unfold entry, A. cbn [nth].
    assert (Sq : forall q, 0 <= q * q) by (intro q; unfold Qle, Qmult; cbn; nia).
    assert (Sp : 0 < x i * x i).
    { destruct (Q_dec 0 (x i * x i)) as [[H|H]|H]; [exact H|specialize (Sq (x i)); lra|].
      exfalso. apply Nz. symmetry in H. apply Qmult_integral in H. tauto. }
    assert (E : x 0%nat * (1 * x 0%nat + (0 * x 1%nat + (0 * x 2%nat + 0))) +
       (x 1%nat * (0 * x 0%nat + ((1 # 2) * x 1%nat + (0 * x 2%nat + 0))) +
       (x 2%nat * (0 * x 0%nat + (0 * x 1%nat + ((1 # 2) * x 2%nat + 0))) + 0)) ==
       x 0%nat * x 0%nat + (1 # 2) * (x 1%nat * x 1%nat) + (1 # 2) * (x 2%nat * x 2%nat)) by ring.
    rewrite E. pose proof (Sq (x 0%nat)). pose proof (Sq (x 1%nat)). pose proof (Sq (x 2%nat)).
    destruct i as [|[|[|i]]]; [lra|lra|lra|lia].
  - intro N. specialize (N (fun i => nth i [1; 0; 0] 0)).
    assert (X : nth 0 [1; 0; 0] 0 == 0); [|vm_compute in X; discriminate].
    apply (N ltac:(intros i Hi; destruct i as [|[|[|i]]]; [| | |lia]; vm_compute; reflexivity) 0%nat). lia.
Qed.
Print Assumptions C42_repeated_refuted.

(** *** Refuted for indefinite problems (saddle points): the average of the
    diagonal may be 0, and the constrained matrix is singular although the
    constrained problem has exactly one solution. *)
Theorem C42_indefinite_refuted : exists n A dvs s0 s1 s2 A',
  proper n [] (dirichlet dvs) /\ symmetric n A /\ NoDup (map fst (concat dvs)) /\
  (forall x, (forall c, In c (dirichlet dvs) -> homogeneous x c) ->
     (forall v, (forall c, In c (dirichlet dvs) -> homogeneous v c) -> dot n v (mulv n A x) == 0) ->
     forall i, (i < n)%nat -> x i == 0) /\
  linear_system (seq 0 n) [] (Some A) None = Ok s0 /\
  set_constraint_relation (add_all dvs s0) = Ok s1 /\ constrain_matrix s1 = Ok s2 /\ l_A s2 = Some A' /\ ~ nonsingular n A'.
Proof.
  set (A := [[1; 0; 0]; [0; 0; 1]; [0; 1; 0]]). set (dvs := [[(0%nat, 1)]]).
  set (s0 := ok_val (linear_system (seq 0 3) [] (Some A) None) no_sys).
  set (s1 := ok_val (set_constraint_relation (add_all dvs s0)) no_sys).
  set (s2 := ok_val (constrain_matrix s1) no_sys).
  exists 3%nat, A, dvs, s0, s1, s2. eexists.
  split; [|split; [|split; [|split; [|split; [vm_compute; reflexivity|split; [vm_compute; reflexivity|split; [vm_compute; reflexivity|split; [vm_compute; reflexivity|]]]]]]]].
  - repeat split; cbn.
    + ranges.
    + constructor.
    + intros ? ? ? [].
    + constructor.
    + repeat constructor.
    + intros c c' [<-|[]] [<-|[]] _; reflexivity.
    + intros ? ? [].
  - intros i j Hi Hj. destruct i as [|[|[|i]]]; [| | |lia]; (destruct j as [|[|[|j]]]; [| | |lia]); reflexivity.
  - cbn. repeat constructor. intros [].
  - intros x Hx Hv.
    assert (X0 : x 0%nat == 0) by exact (Hx _ (or_introl eq_refl)).
    assert (V : forall k, (0 < k < 3)%nat -> forall c, In c (dirichlet dvs) -> homogeneous (ek k) c).
    { intros k Hk c [<-|[]]. unfold homogeneous, ek. cbn. destruct k; [lia|reflexivity]. }
    pose proof (Hv _ (V 1%nat ltac:(lia))) as V1. pose proof (Hv _ (V 2%nat ltac:(lia))) as V2.
    rewrite dot_ek in V1, V2 by lia. unfold mulv, sum, entry, A in V1, V2. cbn [seq map fold_right nth] in V1, V2.
    intros i Hi. destruct i as [|[|[|i]]]; [exact X0|lra|lra|lia].
  - intro N. specialize (N (fun i => nth i [1; 0; 0] 0)).
    assert (X : nth 0 [1; 0; 0] 0 == 0); [|vm_compute in X; discriminate].
    apply (N ltac:(intros i Hi; destruct i as [|[|[|i]]]; [| | |lia]; vm_compute; reflexivity) 0%nat). lia.
Qed.
Print Assumptions C42_indefinite_refuted.
