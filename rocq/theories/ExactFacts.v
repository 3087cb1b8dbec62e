(** * Facts about finite element functions on one-dimensional meshes (for C84) *)
From Coq Require Import List Arith Bool Lia Permutation QArith Lqa Qfield.
From Verif Require Import Tree Forest SpecForest TreeFacts ForestFacts Geom SpecGeom IntervalFacts Fem SpecFem ShapeFacts Dof SpecDof DofVert SpecDofVert Basis Solver SolverFacts Nodal NodalFacts Nodal1 SpecNodal
  Nodal1Facts Nodal1Main Nodal1Interp Nodal1More Region1 Assemble SpecAssemble Kernel SpecKernel Dirichlet1 Prop_Kernel SpecProblem ProblemFacts ProblemMain SpecExact.
From Verif Require Prop_Bin Prop_Shape.
Import ListNotations.
Open Scope Q_scope.

(** ** sums *)
Lemma tot_ext {X} (h h' : X -> Q) l : (forall x, In x l -> h x == h' x) -> total h l == total h' l.
Proof. unfold total. induction l as [|x l IH]; intros E; cbn; [reflexivity|]. rewrite (E x (or_introl eq_refl)), IH; [reflexivity|]. intros y I. apply E. right. exact I. Qed.
Lemma tot_plus {X} (h h' : X -> Q) l : total (fun x => h x + h' x) l == total h l + total h' l.
Proof. unfold total. induction l as [|x l IH]; cbn; [reflexivity|]. rewrite IH. ring. Qed.
Lemma tot_scal {X} c (h : X -> Q) l : total (fun x => c * h x) l == c * total h l.
Proof. unfold total. induction l as [|x l IH]; cbn; [ring|]. rewrite IH. ring. Qed.
Lemma tot_nonneg {X} (h : X -> Q) l : (forall x, In x l -> 0 <= h x) -> 0 <= total h l.
Proof. unfold total. induction l as [|x l IH]; intros E; cbn; [lra|]. pose proof (E x (or_introl eq_refl)). pose proof (IH (fun y I => E y (or_intror I))). lra. Qed.
Lemma tot_zero {X} (h : X -> Q) l : (forall x, In x l -> 0 <= h x) -> total h l == 0 -> forall x, In x l -> h x == 0.
Proof.
  induction l as [|y l IH]; intros E T x I; [destruct I|]. unfold total in T. cbn in T. fold (total h l) in T. pose proof (E y (or_introl eq_refl)). pose proof (tot_nonneg h l (fun z I => E z (or_intror I))).
  destruct I as [->|I]; [lra|]. apply IH; [intros z Iz; apply E; right; exact Iz|lra|exact I].
Qed.
Lemma tot_perm {X} (h : X -> Q) l l' : Permutation l l' -> total h l == total h l'.
Proof. unfold total. induction 1; cbn; [reflexivity|rewrite IHPermutation; reflexivity|ring|]. rewrite IHPermutation1. exact IHPermutation2. Qed.

(** ** cubics *)
Definition csub (p q : quad4) : quad4 := cadd p (cscale (- (1)) q).
Lemma csub_eval p q x : cub (csub p q) x == cub p x - cub q x /\ cub_x (csub p q) x == cub_x p x - cub_x q x /\ cub_xx (csub p q) x == cub_xx p x - cub_xx q x.
Proof. destruct p as [[[a b] c] d], q as [[[a' b'] c'] d']. unfold csub, cadd, cscale, cub, cub_x, cub_xx. repeat split; ring. Qed.
Definition cder (der : deriv) (q : quad4) (x : Q) : Q := match der with V0 => cub q x | V1 _ => cub_x q x | V2 _ _ => cub_xx q x end.
Definition of_list (c : list Q) : quad4 := (nth 0 c 0, nth 1 c 0, nth 2 c 0, nth 3 c 0).
Lemma of_list_deg c m : (length c <= S m)%nat -> cdeg m (of_list c).
Proof. intros L. unfold of_list, cdeg. repeat split; intros H; rewrite nth_overflow by lia; reflexivity. Qed.
Lemma of_list_poly c x : (length c <= 4)%nat -> poly c x == cub (of_list c) x.
Proof. intros L. unfold of_list, cub. do 4 (destruct c as [|? c]; [cbn; ring|]). destruct c; [cbn; ring|cbn in L; lia]. Qed.
Lemma cub_value der c q x : (forall z, poly c z == cub q z) -> poly_value der c x (cder der q x).
Proof.
  intros E. destruct der as [|i|i j]; cbn [poly_value cder].
  - rewrite E. reflexivity.
  - apply (deriv_cub _ q 1); [intros; rewrite E; ring|ring].
  - exists (cub_x q). split; [intros z; apply (deriv_cub _ q 1); [intros; rewrite E; ring|ring]|].
    destruct q as [[[a b] c2] d]. apply (deriv_cub _ (b, 2 * c2, 3 * d, 0) 1); [intros; unfold cub, cub_x; ring|unfold cub_x, cub_xx; ring].
Qed.

Section Use.
Context {periodic : bool} {a b : Q} {e : elem} {f : forest itv} {sf : option flag} {s : dofs} {dv : dverts} {L : list nat} {B : list (option nat) * list nat}.
Context (U : in_use periodic a b e f sf s dv L B).

Lemma around_sub x p : leaf_around f sf x p -> sub_leaf f sf p.
Proof. intros [n [En [Ln _]]]. exists n. auto. Qed.
Definition is_cubic (v : nat -> Q) (V : deriv -> path -> Q -> Q) (p : path) (q : quad4) : Prop :=
  cdeg (degree e) q /\ (forall k d z, dof_at s p k d -> position1 e f p k z -> cub q z == v d) /\ forall der x, leaf_around f sf x p -> V der p x == cder der q x.
Lemma rep_cub v V p : represents e f sf s v V -> sub_leaf f sf p -> exists q, is_cubic v V p q.
Proof.
  intros R [n [En Ln]]. destruct (use_leaf_width U p n En Ln) as [W _]. assert (LA : leaf_around f sf (fst (n_data n)) p) by (exists n; split; [exact En|split; [exact Ln|lra]]).
  destruct (R V0 p _ LA) as [c [[Lc Hc] _]]. pose proof (degree_3 e) as D3. assert (E : forall z, poly c z == cub (of_list c) z) by (intros z; apply of_list_poly; lia).
  exists (of_list c). split; [apply of_list_deg; exact Lc|]. split; [intros k d z Dk Pz; rewrite <- E; apply (Hc k d z Dk Pz)|].
  intros der x Lx. symmetry. apply (rep_value U v V p x _ der R Lx). exists c. split; [split; [exact Lc|exact Hc]|]. apply cub_value. exact E.
Qed.
Lemma cub_rep v V : (forall p, sub_leaf f sf p -> exists q, is_cubic v V p q) -> represents e f sf s v V.
Proof.
  intros H der p x LA. destruct (H p (around_sub x p LA)) as [q [D [N E]]]. exists (clist (degree e) q).
  assert (P : forall z, poly (clist (degree e) q) z == cub q z) by (intros z; apply clist_poly; exact D).
  split; [split; [apply clist_len|intros k d z Dk Pz; rewrite P; apply (N k d z Dk Pz)]|].
  apply (poly_value_proper der _ x (cder der q x)); [symmetry; apply E; exact LA|]. apply cub_value. exact P.
Qed.
Lemma rep_sub v V u W : represents e f sf s v V -> represents e f sf s u W -> represents e f sf s (fun d => v d - u d) (fun der p x => V der p x - W der p x).
Proof.
  intros RV RW. apply cub_rep. intros p Lp. destruct (rep_cub v V p RV Lp) as [q [D [N E]]]. destruct (rep_cub u W p RW Lp) as [q' [D' [N' E']]]. exists (csub q q').
  split; [apply cdeg_add; [exact D|apply cdeg_scale; exact D']|]. split.
  - intros k d z Dk Pz. rewrite (proj1 (csub_eval q q' z)), (N k d z Dk Pz), (N' k d z Dk Pz). reflexivity.
  - intros der x LA. rewrite (E der x LA), (E' der x LA). destruct (csub_eval q q' x) as [C1 [C2 C3]]. destruct der; cbn [cder]; rewrite ?C1, ?C2, ?C3; reflexivity.
Qed.
(** the leaves from left to right *)
Definition row : list (path * node itv) := fget_leaves f None sf DepthFirst.
Lemma row_tiles : tiles a b (map (fun c => n_data (snd c)) row).
Proof.
  destruct (use_mesh U) as [[l [P R]] [T _]]. exact (Prop_Bin.C16_leaves_tile l f sf a b P R (iu_rooted _ _ _ _ _ _ _ _ _ _ U) T).
Qed.
Lemma row_in p n : In (p, n) row <-> fget f p = Some n /\ is_leaf_of sf n.
Proof. unfold row. rewrite in_fget_leaves. cbn. tauto. Qed.
Lemma row_ends p n : In (p, n) row -> leaf_around f sf (fst (n_data n)) p /\ leaf_around f sf (snd (n_data n)) p /\ fst (n_data n) < snd (n_data n).
Proof. intros I. apply row_in in I. destruct I as [En Ln]. destruct (use_leaf_width U p n En Ln) as [W _]. split; [|split; [|exact W]]; exists n; (split; [exact En|split; [exact Ln|lra]]). Qed.
Lemma continuous v V p q x y : torn e = false -> represents e f sf s v V -> leaf_around f sf x p -> leaf_around f sf y q -> x == y -> V V0 p x == V V0 q y.
Proof.
  intros NT R Hp Hq E. apply (continuous_value U v x _ _ NT); [exists p; split; [exact Hp|apply R; exact Hp]|].
  exists q. assert (Hx : leaf_around f sf x q) by (destruct Hq as [n [En [Ln X]]]; exists n; split; [exact En|split; [exact Ln|lra]]).
  split; [exact Hx|]. apply (value_x v V0 q y x _ (Qeq_sym _ _ E)). apply R. exact Hq.
Qed.
End Use.

(** a function that is constant on every interval of a tiling, continuous, and zero at an end *)
Lemma chain_left (h : path -> Q -> Q) b (l : list (path * node itv)) : forall a, tiles a b (map (fun c => n_data (snd c)) l) ->
  (forall p n, In (p, n) l -> h p (fst (n_data n)) == h p (snd (n_data n))) ->
  (forall p n p' n', In (p, n) l -> In (p', n') l -> snd (n_data n) == fst (n_data n') -> h p (snd (n_data n)) == h p' (fst (n_data n'))) ->
  (forall p n, In (p, n) l -> fst (n_data n) == a -> h p (fst (n_data n)) == 0) ->
  forall p n, In (p, n) l -> h p (fst (n_data n)) == 0.
Proof.
  induction l as [|[p0 n0] l IH]; intros a T C J Z p n I; [destruct I|]. cbn in T. destruct T as [T1 [T2 T3]].
  assert (Z0 : h p0 (fst (n_data n0)) == 0) by (apply Z; [left; reflexivity|exact T1]).
  destruct I as [E|I]; [injection E as <- <-; exact Z0|].
  refine (IH _ T3 _ _ _ p n I).
  - intros p' n' I'. apply C. right. exact I'.
  - intros p1 n1 p2 n2 I1 I2. apply J; right; assumption.
  - intros p' n' I' E'. rewrite <- (J p0 n0 p' n' (or_introl eq_refl) (or_intror I') (Qeq_sym _ _ E')), <- (C p0 n0 (or_introl eq_refl)). exact Z0.
Qed.
Lemma tiles_next a b (c : path * node itv) l : tiles a b (map (fun c => n_data (snd c)) (c :: l)) -> l = [] /\ snd (n_data (snd c)) == b \/ exists p n, In (p, n) l /\ fst (n_data n) == snd (n_data (snd c)).
Proof. cbn. intros [_ [_ T]]. destruct l as [|[p n] l]; [left; split; [reflexivity|exact T]|right; exists p, n; split; [left; reflexivity|]]. cbn in T. apply T. Qed.
Lemma chain_right (h : path -> Q -> Q) b (l : list (path * node itv)) : forall a, tiles a b (map (fun c => n_data (snd c)) l) ->
  (forall p n, In (p, n) l -> h p (fst (n_data n)) == h p (snd (n_data n))) ->
  (forall p n p' n', In (p, n) l -> In (p', n') l -> snd (n_data n) == fst (n_data n') -> h p (snd (n_data n)) == h p' (fst (n_data n'))) ->
  (forall p n, In (p, n) l -> snd (n_data n) == b -> h p (snd (n_data n)) == 0) ->
  forall p n, In (p, n) l -> h p (fst (n_data n)) == 0.
Proof.
  induction l as [|[p0 n0] l IH]; intros a T C J Z p n I; [destruct I|]. pose proof (tiles_next a b (p0, n0) l T) as NX. cbn in T. destruct T as [T1 [T2 T3]].
  assert (IH' : forall p n, In (p, n) l -> h p (fst (n_data n)) == 0).
  { apply (IH _ T3); [intros p' n' I'; apply C; right; exact I'|intros p1 n1 p2 n2 I1 I2; apply J; right; assumption|intros p' n' I'; apply Z; right; exact I']. }
  destruct I as [E|I]; [injection E as <- <-|apply IH'; exact I]. rewrite (C p0 n0 (or_introl eq_refl)). destruct NX as [[_ E]|[p' [n' [I' E']]]]; [apply Z; [left; reflexivity|exact E]|].
  rewrite (J p0 n0 p' n' (or_introl eq_refl) (or_intror I') (Qeq_sym _ _ E')). apply IH'. exact I'.
Qed.
