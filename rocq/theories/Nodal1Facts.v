(** * Nodal functions on 1D meshes: the value is that of a piecewise polynomial *)
From Coq Require Import List Arith Bool Lia Permutation QArith Lqa Qfield.
From Verif Require Import Tree Forest SpecForest History TreeFacts ForestFacts GenFacts Geom SpecGeom IntervalFacts Mesh1D Fem SpecFem ShapeFacts
  Dof SpecDof DofVert SpecDofVert Basis Solver Nodal NodalFacts Nodal1 SpecNodal.
Import ListNotations.
Open Scope Q_scope.

(** ** cubics *)
Definition quad4 := (Q * Q * Q * Q)%type.
Definition cadd (p q : quad4) : quad4 := let '(a, b, c, d) := p in let '(a', b', c', d') := q in (a + a', b + b', c + c', d + d').
Definition cscale (k : Q) (p : quad4) : quad4 := let '(a, b, c, d) := p in (k * a, k * b, k * c, k * d).
Definition ccomp (p : quad4) (al be : Q) : quad4 := let '(a, b, c, d) := p in
  (a + b * al + c * al * al + d * al * al * al, b * be + 2 * c * al * be + 3 * d * al * al * be, c * be * be + 3 * d * al * be * be, d * be * be * be).
Fixpoint csum (w : nat -> Q) (C : nat -> quad4) (l : list nat) : quad4 :=
  match l with [] => (0, 0, 0, 0) | k :: r => cadd (cscale (w k) (C k)) (csum w C r) end.
(** the coefficients above the degree [m] vanish *)
Definition cdeg (m : nat) (p : quad4) : Prop := let '(a, b, c, d) := p in
  ((m < 1)%nat -> b == 0) /\ ((m < 2)%nat -> c == 0) /\ ((m < 3)%nat -> d == 0).
Definition clist (m : nat) (p : quad4) : list Q := let '(a, b, c, d) := p in firstn (S m) [a; b; c; d].

Lemma cdeg_add m p q : cdeg m p -> cdeg m q -> cdeg m (cadd p q).
Proof.
  destruct p as [[[a b] c] d], q as [[[a' b'] c'] d']. cbn. intros [A [B C]] [A' [B' C']].
  repeat split; intro H; [rewrite A, A'|rewrite B, B'|rewrite C, C']; auto; ring.
Qed.
Lemma cdeg_scale m k p : cdeg m p -> cdeg m (cscale k p).
Proof. destruct p as [[[a b] c] d]. cbn. intros [A [B C]]. repeat split; intro H; [rewrite A|rewrite B|rewrite C]; auto; ring. Qed.
Lemma cdeg_comp m p al be : cdeg m p -> cdeg m (ccomp p al be).
Proof.
  destruct p as [[[a b] c] d]. cbn. intros [A [B C]].
  repeat split; intro H; [rewrite A, B, C|rewrite B, C|rewrite C]; auto; try lia; ring.
Qed.
Lemma cdeg_sum m w C l : (forall k, In k l -> cdeg m (C k)) -> cdeg m (csum w C l).
Proof.
  induction l as [|k l IH]; intros H; [repeat split; reflexivity|]. cbn [csum]. apply cdeg_add; [apply cdeg_scale|apply IH; intros]; apply H; cbn; auto.
Qed.
Lemma clist_poly m p x : cdeg m p -> poly (clist m p) x == cub p x.
Proof.
  destruct p as [[[a b] c] d]. cbn [cdeg clist]. intros [A [B C]]. unfold cub.
  destruct m as [|[|[|m]]]; cbn [firstn poly]; [rewrite A, B, C|rewrite B, C|rewrite C|]; try lia; try ring.
  destruct m; cbn [firstn poly]; ring.
Qed.
Lemma clist_len m p : (length (clist m p) <= S m)%nat.
Proof. destruct p as [[[a b] c] d]. unfold clist. rewrite firstn_length. lia. Qed.
Lemma cub_comp p al be x : cub (ccomp p al be) x == cub p (al + be * x) /\ cub_x (ccomp p al be) x == be * cub_x p (al + be * x) /\
  cub_xx (ccomp p al be) x == be * be * cub_xx p (al + be * x).
Proof. destruct p as [[[a b] c] d]. unfold ccomp, cub, cub_x, cub_xx. repeat split; ring. Qed.
Lemma cub_sum w C l x : cub (csum w C l) x == sumQ (map (fun k => w k * cub (C k) x) l) /\
  cub_x (csum w C l) x == sumQ (map (fun k => w k * cub_x (C k) x) l) /\ cub_xx (csum w C l) x == sumQ (map (fun k => w k * cub_xx (C k) x) l).
Proof.
  induction l as [|k l [I1 [I2 I3]]]; [unfold cub, cub_x, cub_xx; cbn; repeat split; ring|]. cbn [csum map sumQ].
  rewrite <- I1, <- I2, <- I3. destruct (C k) as [[[a b] c] d], (csum w C l) as [[[a' b'] c'] d']. unfold cub, cub_x, cub_xx. cbn. repeat split; ring.
Qed.
Lemma coef_deg e k : cdeg (degree e) (cf e k).
Proof.
  unfold cf. destruct (nth_in_or_default k (coefs e) (0, 0, 0, 0)) as [H|Z]; [|rewrite Z; repeat split; reflexivity].
  destruct e; cbn in *; repeat match goal with H : _ \/ _ |- _ => destruct H as [<-|H] end; try contradiction; cbn; repeat split; intros; try reflexivity; try lia.
Qed.
Lemma cub_proper p x y : x == y -> cub p x == cub p y /\ cub_x p x == cub_x p y /\ cub_xx p x == cub_xx p y.
Proof. destruct p as [[[a b] c] d]. intro E. unfold cub, cub_x, cub_xx. rewrite E. repeat split; reflexivity. Qed.

(** ** the rows of shape *)
Definition row_entry (e : elem) (d : itv) (der : deriv) (x : Q) (k : nat) : Q :=
  match der with
  | V0 => cub (cf e k) (imap_inv d x)
  | V1 _ => ijac_p2r d * cub_x (cf e k) (imap_inv d x)
  | V2 _ _ => ijac_p2r d * ijac_p2r d * cub_xx (cf e k) (imap_inv d x)
  end.
Lemma ref_unit d x : fst d < snd d -> fst d <= x <= snd d -> 0 <= imap_inv d x <= 1.
Proof.
  intros W [A B]. unfold imap_inv. split.
  - apply Qle_shift_div_l; lra.
  - apply Qle_shift_div_r; lra.
Qed.
Lemma shape_entry e d der x k : fst d < snd d -> fst d <= x <= snd d -> (k < n_dofs D1 e)%nat ->
  exists y, shape1 e k (imap_inv d x) der (Some (ijac_p2r d)) true = Ok y /\ y == row_entry e d der x k.
Proof.
  intros W X K. destruct (phi1_spec e k K) as [c [f [g [h [Ec [F [G [H E]]]]]]]].
  assert (Ecf : cf e k = c) by (unfold cf; apply nth_error_nth; auto).
  assert (U : unit_b (imap_inv d x) = true).
  { destruct (ref_unit d x W X). unfold unit_b. rewrite andb_true_iff. split; apply Qle_bool_iff; auto. }
  unfold shape1, guard. rewrite U. unfold row_entry. rewrite Ecf. destruct der as [|i|i j].
  - rewrite F. eexists. split; [reflexivity|apply E].
  - rewrite G. cbn [bind]. eexists. split; [reflexivity|]. destruct (E (imap_inv d x)) as [_ [E2 _]]. rewrite E2. reflexivity.
  - rewrite H. cbn [bind]. eexists. split; [reflexivity|]. destruct (E (imap_inv d x)) as [_ [_ E3]]. rewrite E3. reflexivity.
Qed.
Lemma shapes_row e (f : forest itv) der p (n : node itv) x : fget f p = Some n -> fst (n_data n) < snd (n_data n) -> fst (n_data n) <= x <= snd (n_data n) ->
  exists row, shapes1 e f der p x = Ok row /\ length row = n_dofs D1 e /\
    forall k, (k < n_dofs D1 e)%nat -> nth k row 0 == row_entry e (n_data n) der x k.
Proof.
  intros E W X. unfold shapes1. rewrite E.
  set (g := fun k => match shape1 e k (imap_inv (n_data n) x) der (Some (ijac_p2r (n_data n))) true with Ok y => y | Err _ => 0 end).
  exists (map g (seq 0 (n_dofs D1 e))). split; [|split].
  - apply mr_ok. intros k Hk. apply in_seq in Hk. destruct (shape_entry e (n_data n) der x k W X) as [y [Ey _]]; [lia|]. unfold g. rewrite Ey. reflexivity.
  - rewrite map_length, seq_length. reflexivity.
  - intros k Hk. rewrite (nth_indep _ 0 (g 0%nat)) by (rewrite map_length, seq_length; auto). rewrite map_nth, seq_nth by auto. cbn [Nat.add].
    destruct (shape_entry e (n_data n) der x k W X Hk) as [y [Ey Eq]]. unfold g. rewrite Ey. exact Eq.
Qed.

(** ** the polynomial of a cell *)
Lemma cell_poly e (d : itv) (w : nat -> Q) : fst d < snd d -> exists c, (length c <= S (degree e))%nat /\
  (forall x, poly c x == sumQ (map (fun k => w k * cub (cf e k) (imap_inv d x)) (seq 0 (n_dofs D1 e)))) /\
  (forall der x, poly_value der c x (sumQ (map (fun k => w k * row_entry e d der x k) (seq 0 (n_dofs D1 e))))).
Proof.
  intros W. set (C := csum w (cf e) (seq 0 (n_dofs D1 e))). set (al := - fst d / (snd d - fst d)). set (be := ijac_p2r d).
  set (C' := ccomp C al be).
  assert (DC : cdeg (degree e) C') by (apply cdeg_comp, cdeg_sum; intros; apply coef_deg).
  assert (R : forall x, al + be * x == imap_inv d x) by (intro x; unfold al, be, imap_inv, ijac_p2r; field; lra).
  assert (P0 : forall x, poly (clist (degree e) C') x == cub C (imap_inv d x)).
  { intro x. rewrite clist_poly by auto. destruct (cub_comp C al be x) as [E _]. unfold C'. rewrite E. apply cub_proper, R. }
  exists (clist (degree e) C'). split; [apply clist_len|]. split.
  - intro x. rewrite P0. apply cub_sum.
  - intros der x. destruct (cub_comp C al be x) as [E0 [E1 E2]]. destruct (cub_proper C _ _ (R x)) as [R0 [R1 R2]].
    destruct (cub_sum w (cf e) (seq 0 (n_dofs D1 e)) (imap_inv d x)) as [S0 [S1 S2]].
    destruct der as [|i|i j]; cbn [poly_value row_entry].
    + rewrite P0. symmetry. apply S0.
    + apply (deriv_cub _ C' 1); [intro y; rewrite clist_poly by auto; ring|].
      unfold C'. rewrite E1, R1. unfold C. rewrite S1.
      rewrite (sumQ_map_ext _ (fun k => w k * cub_x (cf e k) (imap_inv d x) * be)) by (intros; unfold be; ring). rewrite sumQ_scale. ring.
    + exists (cub_x C'). split; [intro z; apply (deriv_cub _ C' 1); [intro y; rewrite clist_poly by auto; ring|ring]|].
      apply (deriv_cub_x _ C' 1); [intro y; ring|]. unfold C'. rewrite E2, R2. unfold C. rewrite S2.
      rewrite (sumQ_map_ext _ (fun k => w k * cub_xx (cf e k) (imap_inv d x) * (be * be))) by (intros; unfold be; ring). rewrite sumQ_scale. ring.
Qed.
(** the shape functions at the nodes *)
Lemma cub_node e i k : (i < n_dofs D1 e)%nat -> (k < n_dofs D1 e)%nat -> cub (cf e i) (ndi e k) == if (i =? k)%nat then 1 else 0.
Proof.
  intros Hi Hk. destruct e; cbn in Hi, Hk; do 4 (destruct i as [|i]; [do 4 (destruct k as [|k]; [reflexivity || lia|]); lia|]); lia.
Qed.
Lemma node_sum e (w : nat -> Q) k : (k < n_dofs D1 e)%nat ->
  sumQ (map (fun i => w i * cub (cf e i) (ndi e k)) (seq 0 (n_dofs D1 e))) == w k.
Proof.
  intro Hk. rewrite (sum_split (seq 0 (n_dofs D1 e)) k (fun i => w i * cub (cf e i) (ndi e k))).
  - rewrite cub_node, Nat.eqb_refl by auto. rewrite sum_zero; [ring|].
    intros i Hi. apply in_seq in Hi. destruct (Nat.eqb_spec i k) as [->|N]; [reflexivity|].
    rewrite cub_node by lia. rewrite (proj2 (Nat.eqb_neq i k) N). ring.
  - apply seq_NoDup.
  - apply in_seq. lia.
Qed.
Lemma imap_round d r : fst d < snd d -> imap_inv d (imap d r) == r.
Proof. intro W. unfold imap_inv, imap. field. lra. Qed.

(** ** a cell all of whose slots are filled *)
Lemma cell_dofs_filled s p n : filled n s p -> (forall k j d, dof_at s p k d -> dof_at s p j d -> k = j) ->
  exists ds, cell_dofs1 s p = Some ds /\ length ds = n /\ NoDup ds /\ forall k d, nth_error ds k = Some d <-> dof_at s p k d.
Proof.
  intros [l [E [Ln F]]] I. unfold cell_dofs1. rewrite E.
  assert (Fu : full l = true).
  { unfold full. apply forallb_forall. intros o Ho. apply In_nth_error in Ho. destruct Ho as [k Hk].
    assert (Lk : (k < n)%nat) by (rewrite <- Ln; apply nth_error_Some; congruence).
    destruct (F k Lk) as [d [l' [E' Hd]]]. rewrite E in E'. injection E' as <-. rewrite Hk in Hd. injection Hd as ->. reflexivity. }
  rewrite Fu. eexists. split; [reflexivity|].
  assert (N : forall k d, nth_error (map (fun o => match o with Some d => d | None => 0%nat end) l) k = Some d <-> dof_at s p k d).
  { intros k d. rewrite nth_error_map. split.
    - intro H. destruct (nth_error l k) as [o|] eqn:Ek; [|discriminate]. cbn in H. injection H as <-.
      assert (Lk : (k < n)%nat) by (rewrite <- Ln; apply nth_error_Some; congruence).
      destruct (F k Lk) as [d [l' [E' Hd]]]. rewrite E in E'. injection E' as <-. rewrite Ek in Hd. injection Hd as ->.
      exists l. split; auto.
    - intros [l' [E' Hd]]. rewrite E in E'. injection E' as <-. rewrite Hd. reflexivity. }
  split; [rewrite map_length; auto|]. split; auto.
  apply NoDup_nth_error. intros i j Hi Hij. rewrite map_length in Hi.
  destruct (nth_error (map (fun o => match o with Some d => d | None => 0%nat end) l) i) as [d|] eqn:Ei.
  - apply (I i j d); apply N; auto.
  - apply nth_error_None in Ei. rewrite map_length in Ei. lia.
Qed.

(** the sum that eval computes in a cell is the value of the polynomial *)
Lemma sum_nth (row : list Q) (ds : list nat) (v : nat -> Q) n : length row = n -> length ds = n ->
  sumQ (map (fun cd => fst cd * v (snd cd)) (combine row ds)) == sumQ (map (fun k => nth k row 0 * v (nth k ds 0%nat)) (seq 0 n)).
Proof.
  revert ds n. induction row as [|a row IH]; intros [|d ds] [|n] Lr Ld; cbn in Lr, Ld; try discriminate; [reflexivity|].
  cbn [combine map sumQ fst snd seq nth]. rewrite <- seq_shift, map_map. rewrite (IH ds n) by lia. reflexivity.
Qed.
Lemma cell_value e (f : forest itv) s v der p (n : node itv) ds row x : fget f p = Some n -> fst (n_data n) < snd (n_data n) -> fst (n_data n) <= x <= snd (n_data n) ->
  length ds = n_dofs D1 e -> (forall k d, nth_error ds k = Some d <-> dof_at s p k d) -> shapes1 e f der p x = Ok row ->
  value_in e f s v der p x (sumQ (map (fun cd => fst cd * v (snd cd)) (combine row ds))).
Proof.
  intros E W X Ld Hd Er. destruct (shapes_row e f der p n x E W X) as [row' [Er' [Lr Hr]]]. rewrite Er in Er'. injection Er' as <-.
  destruct (cell_poly e (n_data n) (fun k => v (nth k ds 0%nat)) W) as [c [Lc [Pc Vc]]].
  exists c. split; [split; auto|].
  - intros k d z Hk [n' [r [En [Enr ->]]]]. rewrite E in En. injection En as <-.
    assert (Hk' : nth_error ds k = Some d) by (apply Hd; auto).
    assert (Lk : (k < n_dofs D1 e)%nat) by (rewrite <- Ld; apply nth_error_Some; congruence).
    destruct (nodes1_nth e k Lk) as [r' [Er' Eq]]. unfold at_ in Er'. rewrite Enr in Er'. injection Er' as <-.
    rewrite Pc. rewrite (sumQ_map_ext _ (fun i => v (nth i ds 0%nat) * cub (cf e i) (ndi e k))).
    + rewrite (node_sum e (fun i => v (nth i ds 0%nat)) k Lk). rewrite (nth_error_nth ds k 0%nat Hk'). reflexivity.
    + intros i _. destruct (cub_proper (cf e i) (imap_inv (n_data n) (imap (n_data n) r)) (ndi e k)) as [Z _]; [rewrite imap_round by auto; auto|]. rewrite Z. reflexivity.
  - assert (Es : sumQ (map (fun cd => fst cd * v (snd cd)) (combine row ds)) == sumQ (map (fun k => v (nth k ds 0%nat) * row_entry e (n_data n) der x k) (seq 0 (n_dofs D1 e)))).
    { rewrite (sum_nth row ds v (n_dofs D1 e) Lr Ld). apply sumQ_map_ext. intros k Hk. apply in_seq in Hk. rewrite Hr by lia. ring. }
    pose proof (Vc der x) as V. destruct der as [|i|i j]; cbn [poly_value] in *.
    + rewrite Es. exact V.
    + intros eps He. destruct (V eps He) as [dl [Hdl B]]. exists dl. split; auto. intros h Hh. rewrite Es. auto.
    + destruct V as [g [Vg V]]. exists g. split; auto. intros eps He. destruct (V eps He) as [dl [Hdl B]]. exists dl. split; auto. intros h Hh. rewrite Es. auto.
Qed.

(** ** uniqueness: two polynomials with the same nodal values are equal *)
Lemma poly_affine c al be : exists c', (length c' <= length c)%nat /\ forall x, poly c' x == poly c (al + be * x).
Proof.
  induction c as [|a c [c' [L E]]]; [exists []; split; [auto|reflexivity]|].
  (* a + (al + be x) c'(x) *)
  assert (G : forall k (l : list Q), exists l', length l' = length l /\ forall x, poly l' x == k * poly l x).
  { intros k l. exists (map (Qmult k) l). split; [apply map_length|]. intro x. induction l as [|y l IH]; cbn; [ring|]. rewrite IH. ring. }
  assert (S : forall (l m : list Q), exists l', length l' = Nat.max (length l) (length m) /\ forall x, poly l' x == poly l x + poly m x).
  { induction l as [|y l IH]; intros m; [exists m; split; [auto|intro; cbn; ring]|]. destruct m as [|z m]; [exists (y :: l); split; [auto|intro; cbn; ring]|].
    destruct (IH m) as [l' [Ll El]]. exists (y + z :: l'). split; [cbn; lia|]. intro x. cbn. rewrite El. ring. }
  destruct (G al c') as [c1 [L1 E1]]. destruct (G be c') as [c2 [L2 E2]]. destruct (S c1 (0 :: c2)) as [c3 [L3 E3]]. destruct (S [a] c3) as [c4 [L4 E4]].
  exists c4. split; [cbn [length] in *; lia|]. intro x. rewrite E4, E3, E1. cbn [poly]. rewrite E2, E. ring.
Qed.
Lemma poly_nodes e d c x : fst d < snd d -> (length c <= S (degree e))%nat ->
  poly c x == sumQ (map (fun k => poly c (imap d (ndi e k)) * cub (cf e k) (imap_inv d x)) (seq 0 (n_dofs D1 e))).
Proof.
  intros W L. destruct (poly_affine c (fst d) (snd d - fst d)) as [c' [L' E]].
  assert (Ex : poly c x == poly c' (imap_inv d x)). { rewrite E. apply poly_proper. unfold imap_inv. field. lra. }
  rewrite Ex, <- (rep1 e c' (imap_inv d x)) by lia. apply sumQ_map_ext. intros k _. rewrite E. unfold imap. reflexivity.
Qed.
Lemma local_unique e (f : forest itv) s v p (n : node itv) c c' : fget f p = Some n -> fst (n_data n) < snd (n_data n) -> filled (n_dofs D1 e) s p ->
  local_poly e f s v p c -> local_poly e f s v p c' -> forall x, poly c x == poly c' x.
Proof.
  intros E W F [L V] [L' V'] x. rewrite (poly_nodes e (n_data n) c x W L), (poly_nodes e (n_data n) c' x W L').
  apply sumQ_map_ext. intros k Hk. apply in_seq in Hk. destruct F as [l [El [Ll F]]]. destruct (F k) as [d Hd]; [lia|].
  destruct (nodes1_nth e k) as [r [Er Eq]]; [lia|]. unfold at_ in Er. destruct (nth_error (reference_nodes1 e) k) as [r'|] eqn:Er'; [|discriminate]. injection Er as <-.
  assert (Z : position1 e f p k (imap (n_data n) r')) by (exists n, r'; auto).
  assert (Ez : imap (n_data n) (ndi e k) == imap (n_data n) r') by (unfold imap; rewrite Eq; reflexivity).
  rewrite (poly_proper c _ _ Ez), (poly_proper c' _ _ Ez). rewrite (V k d _ Hd Z), (V' k d _ Hd Z). reflexivity.
Qed.
