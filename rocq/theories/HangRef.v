(** * The reference cell and hanging nodes (for C51, C52) *)
From Coq Require Import List Arith Bool Lia QArith Lqa Permutation.
From Verif Require Import Tree Forest Geom SpecGeom Quad SpecForest SpecQuad Fem SpecFem ShapeFacts Prop_Inherit Dof Dof2 SpecDof2 SurfFacts Node2Facts Hang SpecHang Solver.
Import ListNotations.
Open Scope nat_scope.

(** nodes on the side [a]: slots and parameters, in the order of [pol] *)
Definition sn (e : elem) (a i : nat) : nat := match i with 0 => a | 1 => (a + 1) mod 4 | S (S i) => eslot e a i end.
Definition st (e : elem) (i : nat) : Q := match i with 0 => 0%Q | 1 => 1%Q | S (S i) => etime e i end.
Definition ns (e : elem) : nat := dpe D2 e + 2.
Definition ell (e : elem) (i : nat) (t : Q) : Q := nth i (pol e) (fun _ => 0%Q) t.
Definition fi (e : elem) (k : nat) (x : pt) : Q :=
  let ij := nth k (basis_index2 e) (0, 0) in (ell e (fst ij) (fst x) * ell e (snd ij) (snd x))%Q.
Lemma phi2_fi e k x : k < nd2 e -> phi2 e k x = Ok (fi e k x).
Proof.
  intro L. unfold phi2, guard. change (n_dofs D2 e) with (nd2 e). rewrite (proj2 (Nat.ltb_lt _ _) L). unfold factors, at_, fi, ell.
  destruct (nth_error (basis_index2 e) k) as [ij|] eqn:E; [|apply nth_error_None in E; rewrite basis2_len in E; unfold nd2 in L; lia].
  rewrite (nth_error_nth _ _ _ E). destruct (basis2_spec e k ij E) as [L1 L2].
  assert (LP : length (pol e) = n_dofs D1 e) by (destruct e; reflexivity). cbn [bind].
  destruct (nth_error (pol e) (fst ij)) as [f|] eqn:Ef; [|apply nth_error_None in Ef; lia].
  destruct (nth_error (pol e) (snd ij)) as [g|] eqn:Eg; [|apply nth_error_None in Eg; lia].
  cbn [bind]. rewrite (nth_error_nth _ _ _ Ef), (nth_error_nth _ _ _ Eg). reflexivity.
Qed.
Local Open Scope Q_scope.
Definition sigma (n : nat) (f : nat -> Q) : Q := sumQ (map f (seq 0 n)).
Lemma sigma_ext n f g : (forall i, (i < n)%nat -> f i == g i) -> sigma n f == sigma n g.
Proof. intro E. apply sumQ_map_ext. intros x Hx. apply E. apply in_seq in Hx. lia. Qed.
(** the value in a cell with the coefficients [U] (by slot) *)
Definition val (e : elem) (U : nat -> Q) (x : pt) : Q := sigma (nd2 e) (fun k => U k * fi e k x).
Lemma ell_proper e i t t' : t == t' -> ell e i t == ell e i t'.
Proof.
  intro E. unfold ell. destruct e; cbn [pol]; do 4 (destruct i as [|i]; [cbn [nth]; rewrite ?E; reflexivity|]); destruct i; reflexivity.
Qed.
Lemma fi_proper e k x y : peq x y -> fi e k x == fi e k y.
Proof. intros [A B]. unfold fi. rewrite (ell_proper e _ _ _ A), (ell_proper e _ _ _ B). reflexivity. Qed.
Lemma val_proper e U x y : peq x y -> val e U x == val e U y.
Proof. intro E. apply sigma_ext. intros i _. rewrite (fi_proper e i x y E). reflexivity. Qed.
(** the trace on a side *)
Lemma trace e U a t : torn e = false -> (a < 4)%nat -> val e U (side_pt a t) == sigma (ns e) (fun i => U (sn e a i) * ell e i t).
Proof.
  intros T L. destruct e; try discriminate T; four a; unfold val, sigma, nd2, ns, fi, ell, side_pt, corner; cbn; unfold third, two3; ring.
Qed.
Lemma ell_node e i l : torn e = false -> (i < ns e)%nat -> (l < ns e)%nat -> ell e i (st e l) == (if (i =? l)%nat then 1 else 0).
Proof.
  intros T Li Ll. unfold ns in *. destruct e; try discriminate T; cbn [dpe Nat.add] in *;
    do 4 (destruct i as [|i]; [do 4 (destruct l as [|l]; [try reflexivity; exfalso; lia|]); lia|]); lia.
Qed.
Lemma sigma_pick n (f : nat -> Q) l : (l < n)%nat -> sigma n (fun i => f i * (if (i =? l)%nat then 1 else 0)) == f l.
Proof.
  unfold sigma. intro L. assert (G : forall k n, sumQ (map (fun i => f i * (if (i =? l)%nat then 1 else 0)) (seq k n)) ==
    if ((k <=? l) && (l <? k + n))%nat then f l else 0).
  { clear. intros k n. revert k. induction n as [|n IH]; intro k; cbn [seq map sumQ].
    - replace (k + 0)%nat with k by lia. destruct (Nat.leb_spec k l), (Nat.ltb_spec l k); cbn [andb]; try reflexivity; lia.
    - rewrite IH. destruct (Nat.eqb_spec k l) as [->|N].
      + destruct (Nat.leb_spec (S l) l); [lia|]. destruct (Nat.leb_spec l l); [|lia]. destruct (Nat.ltb_spec l (l + S n)); [|lia]. cbn [andb]. ring.
      + destruct (Nat.leb_spec k l), (Nat.ltb_spec l (k + S n)), (Nat.leb_spec (S k) l), (Nat.ltb_spec l (S k + n)); cbn [andb]; try lia; ring. }
  rewrite (G 0%nat n). cbn [Nat.leb andb Nat.add]. rewrite (proj2 (Nat.ltb_lt _ _) L). reflexivity.
Qed.
Lemma val_side_node e U a l : torn e = false -> (a < 4)%nat -> (l < ns e)%nat -> val e U (side_pt a (st e l)) == U (sn e a l).
Proof.
  intros T La Ll. rewrite (trace e U a _ T La). rewrite <- (sigma_pick (ns e) (fun i => U (sn e a i)) l Ll). apply sigma_ext. intros i Li.
  rewrite (ell_node e i l T Li Ll). reflexivity.
Qed.
Lemma val_corner e U c : torn e = false -> (c < 4)%nat -> val e U (corner c) == U c.
Proof.
  intros T L. rewrite <- (val_side_node e U c 0 T L); [|unfold ns; lia]. apply val_proper. apply peq_s. apply (side_0 c L).
Qed.
(** the other direction of the side *)
Definition srev (e : elem) (i : nat) : nat := match i with 0 => 1 | 1 => 0 | S (S i) => S (S (dpe D2 e - 1 - i)) end%nat.
Lemma sigma_rev e f g t : torn e = false -> (forall i, (i < ns e)%nat -> f i == g (srev e i)) ->
  sigma (ns e) (fun i => f i * ell e i t) == sigma (ns e) (fun i => g i * ell e i (1 - t)).
Proof.
  intros T H. unfold sigma, ns in *. destruct e; try discriminate T; cbn [dpe Nat.add seq map sumQ] in *;
  [pose proof (H 0%nat ltac:(lia)) as H0; pose proof (H 1%nat ltac:(lia)) as H1
  |pose proof (H 0%nat ltac:(lia)) as H0; pose proof (H 1%nat ltac:(lia)) as H1; pose proof (H 2%nat ltac:(lia)) as H2
  |pose proof (H 0%nat ltac:(lia)) as H0; pose proof (H 1%nat ltac:(lia)) as H1; pose proof (H 2%nat ltac:(lia)) as H2; pose proof (H 3%nat ltac:(lia)) as H3];
  cbn [srev dpe Nat.sub] in *; unfold ell; cbn [pol nth]; unfold third, two3; rewrite H0, H1; try rewrite H2; try rewrite H3; ring.
Qed.
(** the shape functions of the side in those of its half [c] *)
Lemma ell_half e i (c : Q) t : torn e = false -> (i < ns e)%nat ->
  ell e i ((c + t) * (1 # 2)) == sigma (ns e) (fun l => ell e i ((c + st e l) * (1 # 2)) * ell e l t).
Proof.
  intros T L. unfold ns in *. destruct e; try discriminate T; cbn [dpe Nat.add] in *;
    do 4 (destruct i as [|i]; [try (exfalso; lia); unfold sigma, ell, st, etime, Qn; cbn [dpe Nat.add seq map sumQ pol nth];
      unfold third, two3; cbn; field|]); lia.
Qed.
Lemma sigma_plus n f g : sigma n (fun i => f i + g i) == sigma n f + sigma n g.
Proof. apply sumQ_plus. Qed.
Lemma sigma_scale n f k : sigma n (fun i => f i * k) == sigma n f * k.
Proof. apply sumQ_scale. Qed.
Lemma sigma_swap n k (f : nat -> nat -> Q) : sigma n (fun i => sigma k (f i)) == sigma k (fun l => sigma n (fun i => f i l)).
Proof.
  unfold sigma. induction (seq 0 n) as [|x l IH]; cbn [map sumQ].
  - induction (seq 0 k) as [|y r IH]; cbn [map sumQ]; [reflexivity|rewrite <- IH; ring].
  - rewrite IH. rewrite <- (sumQ_plus (f x) (fun l0 => sumQ (map (fun i => f i l0) l)) (seq 0 k)). reflexivity.
Qed.
Lemma trace_half e U a (c : Q) t : torn e = false -> (a < 4)%nat ->
  val e U (side_pt a ((c + t) * (1 # 2))) == sigma (ns e) (fun l => val e U (side_pt a ((c + st e l) * (1 # 2))) * ell e l t).
Proof.
  intros T La. rewrite (trace e U a _ T La).
  rewrite (sigma_ext (ns e) _ (fun i => sigma (ns e) (fun l => U (sn e a i) * ell e i ((c + st e l) * (1 # 2)) * ell e l t))).
  2: { intros i Li. rewrite (ell_half e i c t T Li). rewrite Qmult_comm. rewrite <- (sigma_scale (ns e) _ (U (sn e a i))). apply sigma_ext. intros l _. ring. }
  rewrite sigma_swap. apply sigma_ext. intros l Ll. rewrite (trace e U a _ T La). rewrite <- sigma_scale. reflexivity.
Qed.
(** ** tables *)
Local Open Scope nat_scope.
Definition halfQ (c : nat) : Q := if c =? 0 then 0%Q else 1%Q.
Definition htime (e : elem) (c l : nat) : Q := ((halfQ c + st e l) * (1 # 2))%Q.
Definition is_node_time (e : elem) (t : Q) : bool := existsb (fun i => Qeq_bool t (st e i)) (seq 0 (ns e)).
Lemma htime_unit e c l : torn e = false -> c < 2 -> l < ns e -> (0 <= htime e c l <= 1)%Q.
Proof.
  intros T Lc Ll. unfold ns in Ll. destruct e; try discriminate T; cbn [dpe Nat.add] in Ll; destruct c as [|[|c]]; try lia;
    (do 4 (destruct l as [|l]; [try (exfalso; lia); vm_compute; split; discriminate|]); lia).
Qed.
Lemma st_unit e l : torn e = false -> l < ns e -> (0 <= st e l <= 1)%Q.
Proof.
  intros T Ll. unfold ns in Ll. destruct e; try discriminate T; cbn [dpe Nat.add] in Ll;
    (do 4 (destruct l as [|l]; [try (exfalso; lia); vm_compute; split; discriminate|]); lia).
Qed.
Lemma sn_lt e a i : torn e = false -> a < 4 -> i < ns e -> sn e a i < nd2 e.
Proof.
  intros T La Li. assert (4 <= nd2 e) by (destruct e; try discriminate T; cbv; lia). unfold ns in Li.
  destruct i as [|[|i]]; cbn [sn]; [lia|pose proof (Nat.mod_upper_bound (a + 1) 4); lia|]. apply eslot_lt; lia.
Qed.
Lemma sn_node e a i : torn e = false -> a < 4 -> i < ns e -> peq (node2 e (sn e a i)) (side_pt a (st e i)).
Proof.
  intros T La Li. unfold ns in Li. destruct i as [|[|i]]; cbn [sn st].
  - eapply peq_t; [apply (node2_corner e a T La)|apply peq_s, side_0; auto].
  - eapply peq_t; [apply (node2_corner e _ T); apply Nat.mod_upper_bound; lia|apply peq_s, side_1; auto].
  - apply node2_edge; auto. lia.
Qed.
Lemma side_node_sn e a k t : torn e = false -> a < 4 -> k < nd2 e -> peq (node2 e k) (side_pt a t) -> exists i, i < ns e /\ k = sn e a i /\ (t == st e i)%Q.
Proof.
  intros T La Lk E. unfold ns. destruct (side_nodes e a k t T La Lk E) as [[-> X]|[[-> X]|[i [Li [-> X]]]]].
  - exists 0. split; [lia|]. auto.
  - exists 1. split; [lia|]. auto.
  - exists (S (S i)). split; [lia|]. auto.
Qed.
Lemma node_time_spec e t : is_node_time e t = true <-> exists i, i < ns e /\ (t == st e i)%Q.
Proof.
  unfold is_node_time. rewrite existsb_exists. split.
  - intros [i [Hi E]]. exists i. apply in_seq in Hi. rewrite Qeq_bool_iff in E. split; [lia|auto].
  - intros [i [Hi E]]. exists i. split; [apply in_seq; lia|]. apply Qeq_bool_iff. auto.
Qed.
Lemma supports_sn e a : torn e = false -> a < 4 -> supports e a = map (sn e a) (seq 0 (ns e)).
Proof. intros T La. destruct e; try discriminate T; four a; vm_compute; reflexivity. Qed.
Definition optb (o : option nat) (k : nat) : bool := match o with Some j => j =? k | None => false end.
Lemma optb_eq o k : optb o k = true -> o = Some k.
Proof. destruct o; cbn; [intro E; apply Nat.eqb_eq in E; congruence|discriminate]. Qed.
Definition isn (o : option nat) : bool := match o with None => true | _ => false end.
Lemma hv_table e a c : torn e = false -> a < 4 -> c < 2 ->
  forallb (fun v => negb (isn (pos0 e v)) || existsb (fun l => optb (pos1 e ((a + c) mod 4) v) (sn e a l) &&
    peqb (coord (r_store (ref2 e)) v) (side_pt a (htime e c l)) && negb (is_node_time e (htime e c l))) (seq 0 (ns e))) (rvertices (rhalf e a c)) = true.
Proof. intros T La Lc. destruct e; try discriminate T; four a; destruct c as [|[|c]]; try lia; vm_compute; reflexivity. Qed.
Lemma hv_table' e a c : torn e = false -> a < 4 -> c < 2 ->
  forallb (fun l => is_node_time e (htime e c l) || existsb (fun v => isn (pos0 e v) && optb (pos1 e ((a + c) mod 4) v) (sn e a l) &&
    peqb (coord (r_store (ref2 e)) v) (side_pt a (htime e c l))) (rvertices (rhalf e a c))) (seq 0 (ns e)) = true.
Proof. intros T La Lc. destruct e; try discriminate T; four a; destruct c as [|[|c]]; try lia; vm_compute; reflexivity. Qed.
(** the hanging vertices of the half [c] of side [a] *)
Lemma hang_v e a c v : torn e = false -> a < 4 -> c < 2 -> In v (rvertices (rhalf e a c)) -> pos0 e v = None ->
  exists l, l < ns e /\ pos1 e ((a + c) mod 4) v = Some (sn e a l) /\ peq (coord (r_store (ref2 e)) v) (side_pt a (htime e c l)) /\
    ~ exists i, i < ns e /\ (htime e c l == st e i)%Q.
Proof.
  intros T La Lc Hv N. pose proof (hv_table e a c T La Lc) as A. rewrite forallb_forall in A. specialize (A v Hv). rewrite N in A. cbn [isn negb orb] in A.
  apply existsb_exists in A. destruct A as [l [Hl A]]. rewrite !andb_true_iff, negb_true_iff, peqb_spec in A. destruct A as [[A1 A2] A3].
  exists l. apply in_seq in Hl. split; [lia|]. split; [apply optb_eq; auto|]. split; auto. rewrite <- node_time_spec. congruence.
Qed.
Lemma hang_l e a c l : torn e = false -> a < 4 -> c < 2 -> l < ns e -> (~ exists i, i < ns e /\ (htime e c l == st e i)%Q) ->
  exists v, In v (rvertices (rhalf e a c)) /\ pos0 e v = None /\ pos1 e ((a + c) mod 4) v = Some (sn e a l) /\
    peq (coord (r_store (ref2 e)) v) (side_pt a (htime e c l)).
Proof.
  intros T La Lc Ll N. pose proof (hv_table' e a c T La Lc) as A. rewrite seq_all in A. specialize (A l Ll). rewrite <- node_time_spec in N.
  destruct (is_node_time e (htime e c l)); [exfalso; auto|]. cbn [orb] in A.
  apply existsb_exists in A. destruct A as [v [Hv A]]. rewrite !andb_true_iff, peqb_spec in A. destruct A as [[A1 A2] A3].
  exists v. split; auto. split; [destruct (pos0 e v); [discriminate A1|auto]|]. split; [apply optb_eq; auto|auto].
Qed.
