(** * Cases and counterexamples for C60-C63, and C64: data of nodal functions,
    explicit and constant functions *)
From Coq Require Import List Arith Bool Lia Permutation QArith Lqa Qfield.
From Verif Require Import Tree Forest SpecForest History Geom SpecGeom Mesh1D Fem SpecFem ShapeFacts
  Dof SpecDof DofVert SpecDofVert Basis Solver Nodal NodalFacts Nodal1 SpecNodal Nodal1Facts Nodal1Main Nodal1Interp Nodal1Cell Nodal1More Prop_Nodal Prop_Nodal2.
From Verif Require Prop_Bin Prop_Dof1D Prop_DofVert Prop_Shape.
Import ListNotations.
Open Scope Q_scope.

(** an order for list(set): increasing *)
Fixpoint ins (d : nat) (l : list nat) : list nat :=
  match l with [] => [d] | x :: r => if (d <? x)%nat then d :: l else if (d =? x)%nat then l else x :: ins d r end.
Definition sorted_set (l : list nat) : list nat := fold_right ins [] l.
Lemma sorted_set_order : set_order sorted_set.
Proof.
  assert (I1 : forall d l x, In x (ins d l) <-> x = d \/ In x l).
  { induction l as [|y l IH]; intro x; cbn [ins]; [cbn; intuition|].
    destruct (d <? y)%nat eqn:E1; [cbn; intuition|]. destruct (d =? y)%nat eqn:E2; [apply Nat.eqb_eq in E2; subst; cbn; intuition|].
    cbn. rewrite IH. intuition. }
  assert (S1 : forall d l, Sorted.StronglySorted lt l -> Sorted.StronglySorted lt (ins d l)).
  { induction l as [|y l IH]; intro H; cbn [ins]; [repeat constructor|]. inversion H as [|? ? H1 H2]; subst.
    destruct (d <? y)%nat eqn:E1.
    - apply Nat.ltb_lt in E1. constructor; auto. constructor; auto. rewrite Forall_forall in *. intros z Hz. specialize (H2 z Hz). lia.
    - destruct (d =? y)%nat eqn:E2; auto. apply Nat.ltb_ge in E1. apply Nat.eqb_neq in E2. constructor; auto. rewrite Forall_forall in *. intros z Hz. apply I1 in Hz. destruct Hz as [->|Hz]; [lia|auto]. }
  assert (N1 : forall l, Sorted.StronglySorted lt l -> NoDup l).
  { induction 1 as [|x l H IH F]; constructor; auto. intro K. rewrite Forall_forall in F. specialize (F x K). lia. }
  intro l. split.
  - apply N1. unfold sorted_set. induction l as [|d l IH]; cbn [fold_right]; [constructor|]. apply S1. auto.
  - intro d. unfold sorted_set. induction l as [|x l IH]; cbn [fold_right]; [tauto|]. rewrite I1, IH. cbn. intuition.
Qed.

(** the mesh of C33_case: leaves [0,1/8], [1/8,1/4], [1/4,1/2], [1/2,1] *)
Definition nx_f : forest itv := Prop_Dof1D.ex_f2.
Lemma nx_mesh periodic e : mesh1d periodic 0 1 e nx_f.
Proof.
  pose proof (Prop_Dof1D.ex_mesh periodic e) as M. apply (Dof1DHist.step_mesh periodic 0 1 e Prop_Dof1D.ex_f (ORefine (Some 3%nat) (Some 7%nat) None true) nx_f Logic.I eq_refl M).
Qed.
Definition nx_sv (periodic : bool) (e : elem) : dofs * dverts := Prop_DofVert.dist2 periodic e nx_f None (no_dofs, []).
Definition nx_B (periodic : bool) (e : elem) : bmaps := match make_basis1 nx_f None (fst (nx_sv periodic e)) sorted_set with Ok B => B | Err _ => ([], []) end.
Lemma nx_use periodic e : make_basis1 nx_f None (fst (nx_sv periodic e)) sorted_set = Ok (nx_B periodic e) ->
  in_use periodic 0 1 e nx_f None (fst (nx_sv periodic e)) (snd (nx_sv periodic e)) (snd (nx_B periodic e)) (nx_B periodic e).
Proof.
  intro E. destruct (Prop_DofVert.C37_total periodic 0 1 e nx_f no_dofs [] None) as [s' [v' Es]]; [constructor; apply nx_mesh|exact Logic.I|].
  apply (use_make periodic 0 1 e nx_f None no_dofs [] _ _ sorted_set); auto; [constructor; apply nx_mesh|exact Logic.I| |apply sorted_set_order].
  assert (X : forall r : res (dofs * dverts), r = Ok (s', v') -> match r with Ok st' => st' | Err _ => (no_dofs, []) end = (s', v')) by (intros r ->; reflexivity).
  pose proof (X _ Es) as Y. change (nx_sv periodic e = (s', v')) in Y. rewrite Es, Y. reflexivity.
Qed.
Example C60_case_use : in_use true 0 1 Q2 nx_f None (fst (nx_sv true Q2)) (snd (nx_sv true Q2)) (snd (nx_B true Q2)) (nx_B true Q2).
Proof. apply nx_use. vm_compute. reflexivity. Qed.
Example C60_case_dofs : length (snd (nx_B true Q2)) = 8%nat /\ length (snd (nx_B false Q2)) = 9%nat /\ length (snd (nx_B false DQ1)) = 8%nat.
Proof. vm_compute. auto. Qed.
(** x (1 - x) and 3, which agree at the ends *)
Definition nx_fs : list (Q -> Q) := [fun x => x * (1 - x); fun _ => 3].
Definition ok {X} (d : X) (r : res X) : X := match r with Ok x => x | Err _ => d end.
Definition nx_nd (periodic : bool) (e : elem) : nodal (list Q) := ok (mkNodal ([], []) []) (nodal_from1 (snd (nx_sv periodic e)) (nx_B periodic e) nx_fs).
Definition rd (r : res (list (list Q))) : res (list (list Q)) := bind r (fun l => Ok (map (map Qred) l)).
Example C61_case_from : exists nd, nodal_from1 (snd (nx_sv true Q2)) (nx_B true Q2) nx_fs = Ok nd.
Proof. eexists. vm_compute. reflexivity. Qed.
(** points inside of a leaf, at a node of two leaves, at the ends; the values are reproduced *)
Example C60_case_eval : rd (nodal_eval1 Q2 nx_f None (fst (nx_sv true Q2)) sorted_set None V0 (nx_nd true Q2) [1 # 3; 1 # 4; 0; 1]) =
  Ok [[2 # 9; 3]; [3 # 16; 3]; [0; 3]; [0; 3]].
Proof. vm_compute. reflexivity. Qed.
Example C60_case_derivative : rd (nodal_eval1 Q2 nx_f None (fst (nx_sv true Q2)) sorted_set None (V1 0) (nx_nd true Q2) [1 # 3; 1 # 4]) =
  Ok [[1 # 3; 0]; [1 # 2; 0]].
Proof. vm_compute. reflexivity. Qed.
(** with a cell that was refined, and with the right half *)
Example C60_case_cell : rd (nodal_eval1 Q2 nx_f None (fst (nx_sv true Q2)) sorted_set (Some [0%nat]) V0 (nx_nd true Q2) [1 # 3; 1 # 9]) =
  Ok [[2 # 9; 3]; [8 # 81; 3]] /\
  rd (nodal_eval1 Q2 nx_f None (fst (nx_sv true Q2)) sorted_set (Some [1%nat]) V0 (nx_nd true Q2) [1 # 3]) = Err AssertionError.
Proof. split; vm_compute; reflexivity. Qed.
(** a continuous Q1 function is interpolated by DQ3 on the same mesh: the same function *)
Definition ev1 (periodic : bool) (e : elem) (der : deriv) : list Q -> res (list (list Q)) :=
  nodal_eval1 e nx_f None (fst (nx_sv periodic e)) sorted_set None der (nx_nd periodic e).
Definition show (e : elem) (r : res (dofs * dverts * nodal (list Q))) (der : deriv) (xs : list Q) : res (list (list Q)) :=
  bind r (fun y => rd (nodal_eval1 e nx_f None (fst (fst y)) sorted_set None der (snd y) xs)).
Example C62_case : show DQ3 (interpolant1 false DQ3 nx_f None (no_dofs, []) sorted_set (ev1 false Q1 V0)) V0 [1 # 3; 1 # 4; 3 # 4] =
  rd (ev1 false Q1 V0 [1 # 3; 1 # 4; 3 # 4]).
Proof. vm_compute. reflexivity. Qed.
Example C62_case_finer : finer nx_f None None.
Proof. intros p n E H. exists p, n. split; auto. split; auto. split; apply Qle_refl. Qed.
(** the derivative of the quadratic x (1 - x) does not jump *)
Example C63_case : show DQ2 (differentiate1 false Q2 nx_f None sorted_set (ev1 false Q2 (V1 0))) V0 [1 # 3; 1 # 4; 3 # 4] = Ok [[1 # 3; 0]; [1 # 2; 0]; [-1 # 2; 0]] /\
  show DQ2 (differentiate1 false Q2 nx_f None sorted_set (ev1 false Q2 (V1 0))) (V1 0) [1 # 3] = Ok [[-2; 0]].
Proof. split; vm_compute; reflexivity. Qed.

Lemma column_array (g : nat -> Q) l : array_of (length l) 1 (map (fun d => [g d]) l).
Proof. split; [apply map_length|]. intros r H. apply in_map_iff in H. destruct H as [d [<- _]]. reflexivity. Qed.
(** ** Where it fails *)
(** eval(phi, dofs) with a dof that is not in the basis: no exception, the value
    of the last dof of the basis is used *)
Theorem C60_stray_refuted : exists L B data phi ds R, basis_init L = Ok B /\ (forall d, In d ds -> ~ In d L) /\
  eval_phi (mkNodal B data) phi ds = Ok R /\ rd (Ok R) = Ok [[7]] /\ data = [[5]; [7]].
Proof.
  exists [0; 2]%nat, (ok ([], []) (basis_init [0; 2]%nat)), [[5]; [7]], [[1]], [1]%nat. eexists. split; [vm_compute; reflexivity|].
  split; [intros d [<-|[]] [H|[H|[]]]; discriminate|]. split; [vm_compute; reflexivity|]. split; vm_compute; reflexivity.
Qed.
Print Assumptions C60_stray_refuted.
(** a function that was made before the mesh was refined and the dofs were
    distributed again cannot be evaluated in the new cells *)
Definition st_f := Prop_Dof1D.ex_f.
Definition st_sv := Prop_DofVert.dist2 false Q1 st_f None (no_dofs, []).
Definition st_B := ok ([], []) (make_basis1 st_f None (fst st_sv) sorted_set).
Definition st_nd := ok (mkNodal ([], []) []) (nodal_from1 (snd st_sv) st_B [fun x => x]).
Definition st_sv2 := Prop_DofVert.dist2 false Q1 nx_f None st_sv.
Theorem C60_refined_refuted : in_use false 0 1 Q1 st_f None (fst st_sv) (snd st_sv) (snd st_B) st_B /\
  nodal_from1 (snd st_sv) st_B [fun x => x] = Ok st_nd /\
  rd (nodal_eval1 Q1 st_f None (fst st_sv) sorted_set None V0 st_nd [1 # 5]) = Ok [[1 # 5]] /\
  step ikid st_f (ORefine (Some 3%nat) (Some 7%nat) None true) = Ok nx_f /\
  distribute_dofs false Q1 nx_f None st_sv = Ok st_sv2 /\
  nodal_eval1 Q1 nx_f None (fst st_sv2) sorted_set None V0 st_nd [1 # 5] = Err IndexError /\
  nodal_eval1 Q1 nx_f None (fst st_sv) sorted_set None V0 st_nd [1 # 5] = Err TypeError.
Proof.
  split.
  - apply (use_make false 0 1 Q1 st_f None no_dofs [] _ _ sorted_set); [constructor; apply Prop_Dof1D.ex_mesh|exact Logic.I| |apply sorted_set_order|vm_compute; reflexivity].
    vm_cast_no_check (@eq_refl (res (dofs * dverts)) (distribute_dofs false Q1 st_f None (no_dofs, []))).
  - repeat split; vm_cast_no_check (@eq_refl (res (list (list Q))) (Err IndexError)) || vm_cast_no_check (@eq_refl (res (list (list Q))) (Err TypeError)) || (vm_compute; reflexivity).
Qed.
Print Assumptions C60_refined_refuted.
(** a periodic mesh and a function with different values at the ends: at one end
    the interpolant has the value of the other *)
Theorem C61_periodic_refuted : in_use true 0 1 Q1 nx_f None (fst (nx_sv true Q1)) (snd (nx_sv true Q1)) (snd (nx_B true Q1)) (nx_B true Q1) /\
  exists nd R, nodal_from1 (snd (nx_sv true Q1)) (nx_B true Q1) [fun x => x] = Ok nd /\
    nodal_eval1 Q1 nx_f None (fst (nx_sv true Q1)) sorted_set None V0 nd [1; 3 # 4] = Ok R /\ rd (Ok R) = Ok [[0]; [1 # 4]].
Proof.
  split; [apply nx_use; vm_compute; reflexivity|]. do 2 eexists. split; [vm_compute; reflexivity|]. split; vm_compute; reflexivity.
Qed.
Print Assumptions C61_periodic_refuted.
(** a function of a torn element that jumps, interpolated with the same element on
    the same mesh: not the same function *)
Definition jump : list (list Q) := map (fun d => [if (d =? 1)%nat then 1 else 0]) (snd (nx_B false DQ1)).
Theorem C62_torn_refuted : in_use false 0 1 DQ1 nx_f None (fst (nx_sv false DQ1)) (snd (nx_sv false DQ1)) (snd (nx_B false DQ1)) (nx_B false DQ1) /\
  array_of (length (snd (nx_B false DQ1))) 1 jump /\
  (let ev := nodal_eval1 DQ1 nx_f None (fst (nx_sv false DQ1)) sorted_set None V0 (mkNodal (nx_B false DQ1) jump) in
   rd (ev [3 # 4]) = Ok [[0]] /\
   show DQ1 (interpolant1 false DQ1 nx_f None (no_dofs, []) sorted_set ev) V0 [3 # 4] = Ok [[1 # 2]]).
Proof.
  split; [apply nx_use; vm_compute; reflexivity|]. split; [exact (column_array _ _)|].
  cbv zeta. split; [vm_cast_no_check (@eq_refl (res (list (list Q))) (Ok [[0]]))|vm_cast_no_check (@eq_refl (res (list (list Q))) (Ok [[1 # 2]]))].
Qed.
Print Assumptions C62_torn_refuted.
(** the derivative of a continuous piecewise linear function jumps: both nodes at
    the jump get the derivative of one side, and inside of a cell the result is
    wrong.  The nodal values are those of |x - 1/2| *)
Definition kink : list (list Q) := map (fun d => [if (d =? 0)%nat then 1 # 2 else if (d =? 1)%nat then 0 else if (d =? 2)%nat then 1 # 2 else if (d =? 3)%nat then 1 # 4 else 3 # 8]) (snd (nx_B false Q1)).
Theorem C63_kink_refuted : in_use false 0 1 Q1 nx_f None (fst (nx_sv false Q1)) (snd (nx_sv false Q1)) (snd (nx_B false Q1)) (nx_B false Q1) /\
  array_of (length (snd (nx_B false Q1))) 1 kink /\
  (let ev := nodal_eval1 Q1 nx_f None (fst (nx_sv false Q1)) sorted_set None in
   let nd := mkNodal (nx_B false Q1) kink in
   rd (ev V0 nd [1 # 3; 3 # 4; 9 # 10]) = Ok [[1 # 6]; [1 # 4]; [2 # 5]] /\ rd (ev (V1 0) nd [1 # 3; 3 # 4]) = Ok [[-1]; [1]] /\
   show DQ1 (differentiate1 false Q1 nx_f None sorted_set (ev (V1 0) nd)) V0 [1 # 3; 3 # 4] = Ok [[-1]; [0]]).
Proof.
  split; [apply nx_use; vm_compute; reflexivity|]. split; [exact (column_array _ _)|].
  cbv zeta. split; [vm_cast_no_check (@eq_refl (res (list (list Q))) (Ok [[1 # 6]; [1 # 4]; [2 # 5]]))|].
  split; [vm_cast_no_check (@eq_refl (res (list (list Q))) (Ok [[-1]; [1]]))|vm_cast_no_check (@eq_refl (res (list (list Q))) (Ok [[-1]; [0]]))].
Qed.
Print Assumptions C63_kink_refuted.
(** a function on a proper submesh cannot be differentiated: the values are
    computed for the dofs of the submesh, the basis is that of the whole mesh *)
Definition sb_f : forest itv := Prop_DofVert.frun [] [OAddTree 2 (0, 1)%Q; ORecord 5%nat; ORefine None None None true].
Lemma sb_mesh : mesh1d false 0 1 Q1 sb_f.
Proof.
  split; [exists [OAddTree 2 (0, 1)%Q; ORecord 5%nat; ORefine None None None true]; split; [repeat constructor|reflexivity]|].
  split; [vm_compute; repeat split; reflexivity|]. split; [|intros; discriminate]. intros t [<-|[]]. reflexivity.
Qed.
Lemma sb_rooted : submesh_rooted sb_f (Some 5%nat).
Proof.
  assert (M : forall p, marked_at sb_f p 5%nat = true -> p = [0%nat]).
  { intros [|[|i] [|[|[|j]] [|k r]]] H; try reflexivity; vm_compute in H; try discriminate; repeat (destruct i; try discriminate); repeat (destruct j; try discriminate); repeat (destruct k; try discriminate). }
  split; [intros [|i] H; [reflexivity|vm_compute in H; destruct i; discriminate]|]. split.
  - intros a i r Ha H. apply M in H. destruct a as [|x [|y a]]; [congruence|injection H; discriminate|injection H; discriminate].
  - intros a i j Ha H. apply M in H. destruct a as [|x [|y a]]; [congruence|injection H; discriminate|injection H; discriminate].
Qed.
Definition sb_sv := Prop_DofVert.dist2 false Q1 sb_f (Some 5%nat) (no_dofs, []).
Definition sb_B := ok ([], []) (make_basis1 sb_f (Some 5%nat) (fst sb_sv) sorted_set).
Definition sb_nd := ok (mkNodal ([], []) []) (nodal_from1 (snd sb_sv) sb_B [fun x => x]).
Theorem C63_submesh_refuted : in_use false 0 1 Q1 sb_f (Some 5%nat) (fst sb_sv) (snd sb_sv) (snd sb_B) sb_B /\
  nodal_from1 (snd sb_sv) sb_B [fun x => x] = Ok sb_nd /\
  rd (nodal_eval1 Q1 sb_f (Some 5%nat) (fst sb_sv) sorted_set None (V1 0) sb_nd [1 # 5]) = Ok [[1]] /\
  differentiate1 false Q1 sb_f (Some 5%nat) sorted_set (nodal_eval1 Q1 sb_f (Some 5%nat) (fst sb_sv) sorted_set None (V1 0) sb_nd) = Err AssertionError.
Proof.
  split.
  - apply (use_make false 0 1 Q1 sb_f (Some 5%nat) no_dofs [] _ _ sorted_set); [constructor; apply sb_mesh|apply sb_rooted| |apply sorted_set_order|vm_compute; reflexivity].
    vm_cast_no_check (@eq_refl (res (dofs * dverts)) (distribute_dofs false Q1 sb_f (Some 5%nat) (no_dofs, []))).
  - split; [vm_compute; reflexivity|]. split; [vm_compute; reflexivity|].
    vm_cast_no_check (@eq_refl (res (dofs * dverts * nodal (list Q))) (Err AssertionError)).
Qed.
Print Assumptions C63_submesh_refuted.
