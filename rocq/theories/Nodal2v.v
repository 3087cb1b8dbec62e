(** * Nodal functions of two variables *)
From Coq Require Import List Arith Bool Lia Permutation QArith Lqa Qfield.
From Verif Require Import Tree Forest SpecForest Geom SpecGeom Mesh1D Fem SpecFem ShapeFacts Dof SpecDof DofVert SpecDofVert Basis Solver Nodal NodalFacts
  Nodal1 SpecNodal Nodal1Facts Nodal1Main Nodal1Interp Nodal1More.
Import ListNotations.
Open Scope Q_scope.

(** the value of sample [t] at the dofs [a] and [b] *)
Definition value_of2 (f : nodal (list (list Q))) (t a b : nat) : Q :=
  match basis_d2i (nd_basis f) a, basis_d2i (nd_basis f) b with
  | Ok (Some i), Ok (Some j) => nth t (nth j (nth i (nd_data f) []) []) 0
  | _, _ => 0 end.
Definition has_index (f : nodal (list (list Q))) (d : nat) : Prop := exists i, basis_d2i (nd_basis f) d = Ok (Some i) /\ (i < length (nd_data f))%nat.
Definition sum2 (w : nat -> nat -> Q) (r1 : list Q) (d1 : list nat) (r2 : list Q) (d2 : list nat) : Q :=
  sumQ (map (fun ca => fst ca * sumQ (map (fun cb => fst cb * w (snd ca) (snd cb)) (combine r2 d2))) (combine r1 d1)).
Lemma eval_phi2_rows f ns phi1 phi2 d1 d2 : n_samples2 (nd_data f) = ns -> (forall r, In r (nd_data f) -> length r = length (nd_data f)) ->
  (forall d, In d d1 -> has_index f d) -> (forall d, In d d2 -> has_index f d) -> length phi1 = length phi2 ->
  (forall r, In r phi1 -> length r = length d1) -> (forall r, In r phi2 -> length r = length d2) ->
  eval_phi2 f phi1 phi2 d1 d2 = Ok (map (fun rr => map (fun t => sum2 (value_of2 f t) (fst rr) d1 (snd rr) d2) (seq 0 ns)) (combine phi1 phi2)).
Proof.
  intros En Sq H1 H2 Lp L1 L2. unfold eval_phi2.
  set (ix := fun d => match basis_d2i (nd_basis f) d with Ok o => o | Err _ => None end).
  set (data := nd_data f) in *.
  assert (X1 : forall d, In d d1 -> exists i, basis_d2i (nd_basis f) d = Ok (Some i) /\ ix d = Some i /\ (i < length data)%nat).
  { intros d H. destruct (H1 d H) as [i [E Li]]. exists i. unfold ix. rewrite E. auto. }
  assert (X2 : forall d, In d d2 -> exists i, basis_d2i (nd_basis f) d = Ok (Some i) /\ ix d = Some i /\ (i < length data)%nat).
  { intros d H. destruct (H2 d H) as [i [E Li]]. exists i. unfold ix. rewrite E. auto. }
  rewrite (mr_ok _ ix) by (intros d H; destruct (X1 d H) as [i [E [-> _]]]; auto). cbn [bind].
  rewrite (mr_ok _ ix) by (intros d H; destruct (X2 d H) as [i [E [-> _]]]; auto). cbn [bind].
  rewrite (mr_ok (take data) (fun o => match o with Some i => nth i data [] | None => [] end)).
  2:{ intros o H. apply in_map_iff in H. destruct H as [d [<- H]]. destruct (X1 d H) as [i [_ [-> Li]]]. cbn. unfold at_. rewrite (nth_error_nth' data [] Li). reflexivity. }
  cbn [bind]. rewrite map_map. set (rw := fun d => match ix d with Some i => nth i data [] | None => [] end). fold rw.
  rewrite (mr_ok _ (fun r => map (fun d => match ix d with Some j => nth j r [] | None => [] end) d2)).
  2:{ intros r H. apply in_map_iff in H. destruct H as [d [<- H]]. destruct (X1 d H) as [i [_ [Ei Li]]]. 
      assert (Lr : length (rw d) = length data) by (unfold rw; rewrite Ei; apply Sq; apply nth_In; auto).
      rewrite (mr_ok _ (fun o => match o with Some j => nth j (rw d) [] | None => [] end)); [rewrite map_map; reflexivity|].
      intros o Ho. apply in_map_iff in Ho. destruct Ho as [d' [<- H']]. destruct (X2 d' H') as [j [_ [-> Lj]]]. cbn. unfold at_.
      assert (Lj' : (j < length (rw d))%nat) by lia. rewrite (nth_error_nth' (rw d) [] Lj'). reflexivity. }
  cbn [bind]. rewrite Lp, Nat.eqb_refl. cbn [negb]. apply mr_ok. intros [r1 r2] Hr. cbn [fst snd].
  pose proof (in_combine_l _ _ _ _ Hr) as Hr1. pose proof (in_combine_r _ _ _ _ Hr) as Hr2.
  rewrite !map_length, (L1 r1 Hr1), (L2 r2 Hr2), !Nat.eqb_refl. cbn [andb]. f_equal. unfold contract2. rewrite En. apply map_ext_in. intros t _.
  unfold sum2. f_equal. rewrite map_map.
  assert (In1 : forall d d', In d d1 -> In d' d2 -> nth t (match ix d' with Some j => nth j (rw d) [] | None => [] end) 0 = value_of2 f t d d').
  { intros d d' H H'. destruct (X1 d H) as [i [E [Ei Li]]]. destruct (X2 d' H') as [j [E' [Ej Lj]]]. unfold value_of2. rewrite E, E'. unfold rw. rewrite Ei, Ej. reflexivity. }
  clear -In1. revert r1. induction d1 as [|d d1' IH]; intros [|c r1]; cbn [map combine]; auto. f_equal; [|apply IH; intros; apply In1; [right|]; auto].
  cbn [fst snd]. f_equal. f_equal. assert (K : forall d', In d' d2 -> nth t (match ix d' with Some j => nth j (rw d) [] | None => [] end) 0 = value_of2 f t d d') by (intros; apply In1; [left|]; auto).
  clear -K. revert r2. induction d2 as [|d' d2' IH]; intros [|c' r2]; cbn [map combine]; auto. f_equal; [|apply IH; intros; apply K; right; auto].
  cbn [fst snd]. rewrite (K d' (or_introl eq_refl)). reflexivity.
Qed.

Lemma sum_swap {X Y} (l : list X) (m : list Y) (g : X -> Y -> Q) : sumQ (map (fun x => sumQ (map (g x) m)) l) == sumQ (map (fun y => sumQ (map (fun x => g x y) l)) m).
Proof.
  induction l as [|x l IH]; cbn [map sumQ].
  - symmetry. apply sum_zero. intros; reflexivity.
  - rewrite IH. clear IH. induction m as [|y m IH]; cbn [map sumQ]; [reflexivity|]. rewrite <- IH. ring.
Qed.

Lemma nth_error_combine {A B} j : forall (l : list A) (m : list B) a b, nth_error l j = Some a -> nth_error m j = Some b -> nth_error (combine l m) j = Some (a, b).
Proof. induction j as [|j IH]; intros [|a l] [|b m] u v K1 K2; cbn in *; try discriminate; [congruence|]. apply IH; assumption. Qed.
Section EvalX2.
Context {P : Type}.
Variables (b1 b2 : list P -> res binned) (cell_dofs : path -> option (list nat)) (s1 s2 : path -> P -> res (list Q)) (set_list : list nat -> list nat).
Hypothesis SL : lists_sets set_list.
Variables (xs ys : list P) (bx by_ : binned).
Hypothesis HX : b1 xs = Ok bx. Hypothesis HY : b2 ys = Ok by_.
Hypothesis PX : Permutation (flat_map snd bx) (seq 0 (length xs)). Hypothesis PY : Permutation (flat_map snd by_) (seq 0 (length ys)).
Definition cells_ok (bs : binned) (xs : list P) (sh : path -> P -> res (list Q)) : Prop := forall q idx, In (q, idx) bs -> exists ds, cell_dofs q = Some ds /\ NoDup ds /\
  forall j, In j idx -> exists x row, nth_error xs j = Some x /\ sh q x = Ok row /\ length row = length ds.
Hypothesis CX : cells_ok bx xs s1. Hypothesis CY : cells_ok by_ ys s2.

(** the sum over the unique dofs is the sum over the dofs of the cell *)
Lemma row_sum (u ds : list nat) (row : list Q) (w : nat -> Q) : NoDup u -> NoDup ds -> length row = length ds -> (forall d, In d ds -> In d u) ->
  sumQ (map (fun cd => fst cd * w (snd cd)) (combine (map (upd (fun _ => 0) (combine ds row)) u) u)) == sumQ (map (fun cd => fst cd * w (snd cd)) (combine row ds)).
Proof.
  intros Nu Nd L Su.
  assert (Ez : forall (c : nat -> Q) l, map (fun cd : Q * nat => fst cd * w (snd cd)) (combine (map c l) l) = map (fun d => c d * w d) l).
  { clear. intros c l. induction l as [|d l IH]; cbn [map combine]; [reflexivity|]. f_equal. exact IH. }
  rewrite Ez. rewrite (upd_sum u w Nu (combine ds row) (fun _ => 0)).
  - rewrite (sum_zero u) by (intros; ring).
    assert (Es : forall (a : list nat) (b : list Q), sumQ (map (fun dv => snd dv * w (fst dv)) (combine a b)) == sumQ (map (fun cd => fst cd * w (snd cd)) (combine b a))).
    { induction a as [|x0 a IH]; intros [|y b]; cbn [map combine sumQ fst snd]; try reflexivity. rewrite IH. reflexivity. }
    rewrite Es. ring.
  - rewrite map_fst_combine by auto. auto.
  - intros d Hd. rewrite map_fst_combine in Hd by auto. split; [auto|reflexivity].
Qed.

Lemma eval_x2_spec (f : nodal (list (list Q))) ns : n_samples2 (nd_data f) = ns -> (forall r, In r (nd_data f) -> length r = length (nd_data f)) ->
  (forall q idx ds d, In (q, idx) bx -> cell_dofs q = Some ds -> In d ds -> has_index f d) ->
  (forall q idx ds d, In (q, idx) by_ -> cell_dofs q = Some ds -> In d ds -> has_index f d) -> length xs = length ys ->
  exists R, eval_x2 b1 b2 cell_dofs s1 s2 set_list f xs ys = Ok R /\ length R = length xs /\
    forall j x y r, nth_error xs j = Some x -> nth_error ys j = Some y -> nth_error R j = Some r -> length r = ns /\
      exists p q ix iy d1 d2 r1 r2, In (p, ix) bx /\ In j ix /\ In (q, iy) by_ /\ In j iy /\
        cell_dofs p = Some d1 /\ s1 p x = Ok r1 /\ length r1 = length d1 /\ cell_dofs q = Some d2 /\ s2 q y = Ok r2 /\ length r2 = length d2 /\
        forall t, (t < ns)%nat -> nth t r 0 == sum2 (value_of2 f t) r1 d1 r2 d2.
Proof.
  intros En Sq H1 H2 Lxy. unfold eval_x2. rewrite Lxy, Nat.eqb_refl. cbn [negb].
  destruct (global_phi_spec b1 cell_dofs s1 set_list SL xs bx HX PX CX) as [c1 [E1 C1]].
  destruct (global_phi_spec b2 cell_dofs s2 set_list SL ys by_ HY PY CY) as [c2 [E2 C2]].
  match type of E1 with _ = Ok (mat _ ?u _, _) => set (u1 := u) in * end.
  match type of E2 with _ = Ok (mat _ ?u _, _) => set (u2 := u) in * end.
  assert (U1 : forall d, In d u1 -> exists q idx ds, In (q, idx) bx /\ cell_dofs q = Some ds /\ In d ds) by apply (u_dofs cell_dofs s1 set_list SL xs bx CX).
  assert (U2 : forall d, In d u2 -> exists q idx ds, In (q, idx) by_ /\ cell_dofs q = Some ds /\ In d ds) by apply (u_dofs cell_dofs s2 set_list SL ys by_ CY).
  assert (N1 : NoDup u1) by apply SL. assert (N2 : NoDup u2) by apply SL. clearbody u1 u2.
  rewrite E1. cbn [bind]. rewrite E2. cbn [bind fst snd].
  rewrite (eval_phi2_rows f ns (mat (length xs) u1 c1) (mat (length ys) u2 c2) u1 u2 En Sq).
  2:{ intros d Hd. destruct (U1 d Hd) as [q [idx [ds [K1 [K2 K3]]]]]. eauto. }
  2:{ intros d Hd. destruct (U2 d Hd) as [q [idx [ds [K1 [K2 K3]]]]]. eauto. }
  2:{ unfold mat. rewrite !map_length, !seq_length. auto. }
  2:{ intros r H. unfold mat in H. apply in_map_iff in H. destruct H as [j [<- _]]. apply map_length. }
  2:{ intros r H. unfold mat in H. apply in_map_iff in H. destruct H as [j [<- _]]. apply map_length. }
  eexists. split; [reflexivity|]. split; [rewrite map_length, combine_length; unfold mat; rewrite !map_length, !seq_length; lia|].
  intros j x y r Ex Ey Er.
  assert (Hj : (j < length xs)%nat) by (apply nth_error_Some; congruence). assert (Hj' : (j < length ys)%nat) by lia.
  assert (Em1 : nth_error (mat (length xs) u1 c1) j = Some (map (c1 j) u1)).
  { rewrite <- (mat_nth (length xs) u1 c1 j Hj). apply nth_error_nth'. unfold mat. rewrite map_length, seq_length. auto. }
  assert (Em2 : nth_error (mat (length ys) u2 c2) j = Some (map (c2 j) u2)).
  { rewrite <- (mat_nth (length ys) u2 c2 j Hj'). apply nth_error_nth'. unfold mat. rewrite map_length, seq_length. auto. }
  assert (Em : nth_error (combine (mat (length xs) u1 c1) (mat (length ys) u2 c2)) j = Some (map (c1 j) u1, map (c2 j) u2)).
  { apply nth_error_combine; assumption. }
  rewrite nth_error_map, Em in Er. cbn [option_map fst snd] in Er. injection Er as <-. split; [rewrite map_length, seq_length; reflexivity|].
  destruct (bin_of xs bx PX j Hj) as [p [ix [Hb Hi]]]. destruct (bin_of ys by_ PY j Hj') as [q [iy [Hb' Hi']]].
  destruct (C1 p ix j Hb Hi) as [x' [d1 [r1 [F1 [F2 [F3 [Nd1 [L1 [S1 Ec1]]]]]]]]]. rewrite Ex in F1. injection F1 as <-.
  destruct (C2 q iy j Hb' Hi') as [y' [d2 [r2 [G1 [G2 [G3 [Nd2 [L2 [S2 Ec2]]]]]]]]]. rewrite Ey in G1. injection G1 as <-.
  exists p, q, ix, iy, d1, d2, r1, r2. repeat (split; auto).
  intros t Ht. rewrite (nth_indep _ 0 (sum2 (value_of2 f 0) (map (c1 j) u1) u1 (map (c2 j) u2) u2)) by (rewrite map_length, seq_length; auto).
  rewrite (map_nth (fun t => sum2 (value_of2 f t) (map (c1 j) u1) u1 (map (c2 j) u2) u2)), seq_nth by auto. cbn [Nat.add].
  unfold sum2. rewrite Ec1, Ec2.
  rewrite (row_sum u1 d1 r1 (fun a => sumQ (map (fun cb => fst cb * value_of2 f t a (snd cb)) (combine (map (upd (fun _ => 0) (combine d2 r2)) u2) u2))) N1 Nd1 L1 S1).
  apply sumQ_map_ext. intros ca _. rewrite (row_sum u2 d2 r2 (value_of2 f t (snd ca)) N2 Nd2 L2 S2). reflexivity.
Qed.
End EvalX2.
