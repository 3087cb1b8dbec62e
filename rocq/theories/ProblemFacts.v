(** * Local forms of problems on one-dimensional meshes: facts for C81-C83 *)
From Coq Require Import List Arith Bool Lia QArith Lqa.
From Verif Require Import Tree Forest SpecForest Geom SpecGeom Fem SpecFem ShapeFacts Dof SpecDof DofVert SpecDofVert Basis Solver SolverFacts Nodal NodalFacts Nodal1 SpecNodal
  Nodal1Facts Nodal1Main Nodal1Interp Nodal1More Region1 Assemble SpecAssemble Kernel SpecKernel Dirichlet1 Prop_Kernel SpecProblem.
Import ListNotations.
Open Scope Q_scope.

Lemma shape_row_ok e d der r : fst d < snd d -> 0 <= r <= 1 ->
  exists row, shape_row e d der r = Ok row /\ length row = n_dofs D1 e /\ forall k, (k < n_dofs D1 e)%nat -> nth k row 0 == row_entry e d der (imap d r) k.
Proof.
  intros W R. unfold shape_row.
  assert (S : forall k, (k < n_dofs D1 e)%nat -> exists y, shape1 e k r der (Some (ijac_p2r d)) true = Ok y /\ y == row_entry e d der (imap d r) k).
  { intros k K. destruct (phi1_spec e k K) as [c [f [g [h [Ec [F [G [H E]]]]]]]].
    assert (Ecf : cf e k = c) by (unfold cf; apply nth_error_nth; auto).
    assert (U : unit_b r = true) by (unfold unit_b; rewrite andb_true_iff; split; apply Qle_bool_iff; apply R).
    destruct (cub_proper c (imap_inv d (imap d r)) r (imap_round d r W)) as [P1 [P2 P3]].
    unfold shape1, guard. rewrite U. unfold row_entry. rewrite Ecf. destruct (E r) as [E1 [E2 E3]]. destruct der as [|i|i j].
    - rewrite F. eexists. split; [reflexivity|]. rewrite P1. exact E1.
    - rewrite G. cbn [bind]. eexists. split; [reflexivity|]. rewrite P2, E2. reflexivity.
    - rewrite H. cbn [bind]. eexists. split; [reflexivity|]. rewrite P3, E3. reflexivity. }
  set (g := fun k => match shape1 e k r der (Some (ijac_p2r d)) true with Ok y => y | Err _ => 0 end).
  exists (map g (seq 0 (n_dofs D1 e))). split; [|split].
  - apply mr_ok. intros k Hk. apply in_seq in Hk. destruct (S k) as [y [Ey _]]; [lia|]. unfold g. rewrite Ey. reflexivity.
  - rewrite map_length, seq_length. reflexivity.
  - intros k Hk. rewrite nth_seq_map by exact Hk. destruct (S k Hk) as [y [Ey Eq]]. unfold g. rewrite Ey. exact Eq.
Qed.
Lemma sum_fold n h : sum n h = sumQ (map h (seq 0 n)).
Proof. unfold sum. generalize (seq 0 n) as l. induction l as [|i l IH]; cbn; [reflexivity|]. rewrite IH. reflexivity. Qed.

(** tables of the shape functions *)
Lemma get_combine {V} (ts : list V) : forall j i t, nth_error ts i = Some t -> get (j + i) (combine (seq j (length ts)) ts) = Ok t.
Proof.
  induction ts as [|t0 ts IH]; intros j [|i] t E; cbn in E; try discriminate.
  - injection E as ->. unfold get. cbn. rewrite Nat.add_0_r, Nat.eqb_refl. reflexivity.
  - unfold get. cbn [length seq combine find fst]. replace (j =? j + S i)%nat with false by (symmetry; apply Nat.eqb_neq; lia).
    replace (j + S i)%nat with (S j + i)%nat by lia. exact (IH (S j) i t E).
Qed.
Lemma map_res_total {A B} (h : A -> res B) l : (forall a, In a l -> exists b, h a = Ok b) -> exists v, map_res h l = Ok v.
Proof.
  induction l as [|a l IH]; intros H; [exists []; reflexivity|]. destruct (H a (or_introl eq_refl)) as [b E]. destruct IH as [v F]; [intros c I; apply H; right; exact I|].
  exists (b :: v). cbn. rewrite E. cbn. rewrite F. reflexivity.
Qed.
Lemma f2_nth {A B} (R : A -> B -> Prop) l l' i a : Forall2 R l l' -> nth_error l i = Some a -> exists b, nth_error l' i = Some b /\ R a b.
Proof. intros F. revert i. induction F as [|x y l l' H F IH]; intros [|i] E; cbn in *; try discriminate; [injection E as <-; eauto|apply IH; exact E]. Qed.
Lemma f2_nth' {A B} (R : A -> B -> Prop) l l' i da db : Forall2 R l l' -> (i < length l)%nat -> R (nth i l da) (nth i l' db).
Proof. intros F. revert i. induction F as [|x y l l' H F IH]; intros [|i] E; cbn in *; try lia; [exact H|apply IH; lia]. Qed.
Lemma tables_ok e bases d refs : fst d < snd d -> (forall r, In r refs -> 0 <= r <= 1) ->
  exists phi, shape_tables e bases d refs = Ok phi.
Proof.
  intros W R. unfold shape_tables. destruct (map_res_total (fun der => map_res (shape_row e d der) refs) bases) as [ts E].
  - intros der _. apply map_res_total. intros r I. destruct (shape_row_ok e d der r W (R r I)) as [row [E _]]. eauto.
  - rewrite E. cbn. eauto.
Qed.
Lemma tables_get e bases d refs phi : shape_tables e bases d refs = Ok phi ->
  Forall (fun q => length (snd q) = length refs) phi /\
  forall i, (i < length bases)%nat -> exists t, get i phi = Ok t /\ Forall2 (fun r row => shape_row e d (nth i bases V0) r = Ok row) refs t.
Proof.
  unfold shape_tables. destruct (map_res _ bases) as [ts|] eqn:E; cbn [bind]; [|discriminate]. intros Q. injection Q as <-. apply mr_ok' in E.
  pose proof (f2_len _ _ _ E) as LT. split.
  - apply Forall_forall. intros [i t] I. apply in_combine_r in I. cbn. clear LT. induction E as [|der t0 l l' H F IH]; [destruct I|]. destruct I as [->|I]; [|auto].
    apply mr_ok' in H. apply f2_len in H. congruence.
  - intros i L. destruct (nth_error bases i) as [der|] eqn:EB; [|apply nth_error_None in EB; lia]. destruct (f2_nth _ _ _ i der E EB) as [t [Et Ht]].
    exists t. rewrite LT. split; [exact (get_combine ts 0 i t Et)|]. rewrite (nth_error_nth bases i V0 EB). apply mr_ok'. exact Ht.
Qed.

(** quadrature sums *)
Lemma quad_ext {X} (rs : list (region X)) h h' : (forall r g, In r rs -> (g < length (r_w r))%nat -> h r g == h' r g) -> quadrature rs h == quadrature rs h'.
Proof.
  induction rs as [|r rs IH]; intros E; [reflexivity|]. rewrite !quadrature_cons. rewrite IH by (intros r' g I G; apply E; [right; exact I|exact G]).
  apply Qplus_comp; [|reflexivity]. apply qsum_ext. intros g I. apply in_seq in I. rewrite (E r g (or_introl eq_refl)) by lia. reflexivity.
Qed.
Lemma qsum_plus {A} (h h' : A -> Q) l : qsum (map (fun a => h a + h' a) l) == qsum (map h l) + qsum (map h' l).
Proof. induction l as [|a l IH]; cbn; [ring|]. unfold qsum in *. rewrite IH. ring. Qed.
Lemma quad_plus {X} (rs : list (region X)) h h' : quadrature rs (fun r g => h r g + h' r g) == quadrature rs h + quadrature rs h'.
Proof.
  induction rs as [|r rs IH]; [unfold quadrature; cbn; ring|]. rewrite !quadrature_cons. rewrite IH.
  rewrite (qsum_ext _ (fun g => nth g (r_w r) 0 * h r g + nth g (r_w r) 0 * h' r g)) by (intros; ring). rewrite qsum_plus. ring.
Qed.
Lemma quad_zero {X} (rs : list (region X)) : quadrature rs (fun _ _ => 0) == 0.
Proof.
  induction rs as [|r rs IH]; [reflexivity|]. rewrite quadrature_cons. rewrite IH. rewrite (qsum_ext _ (fun _ => 0)) by (intros; ring).
  rewrite Qplus_0_r. generalize (seq 0 (length (r_w r))) as l. induction l as [|i l IHl]; cbn; [reflexivity|]. unfold qsum in *. rewrite IHl. reflexivity.
Qed.
Lemma quad_sum {X} (rs : list (region X)) n (h : nat -> region X -> nat -> Q) : sum n (fun a => quadrature rs (h a)) == quadrature rs (fun r g => sum n (fun a => h a r g)).
Proof.
  induction n as [|n IH]; [rewrite sum_0; symmetry; rewrite (quad_ext rs _ (fun _ _ => 0)); [apply quad_zero|intros; apply sum_0]|].
  rewrite sum_S, IH. rewrite <- quad_plus. apply quad_ext. intros r g _ _. rewrite sum_S. reflexivity.
Qed.
Lemma quad_scal {X} (rs : list (region X)) c h : c * quadrature rs h == quadrature rs (fun r g => c * h r g).
Proof.
  induction rs as [|r rs IH]; [unfold quadrature; cbn; ring|]. rewrite !quadrature_cons. rewrite Qmult_plus_distr_r, IH. apply Qplus_comp; [|reflexivity].
  generalize (seq 0 (length (r_w r))) as l. induction l as [|i l IHl]; cbn; [ring|]. unfold qsum in *. rewrite <- IHl. ring.
Qed.
Lemma quad_bilinear {X} (rs : list (region X)) n (v u : nat -> Q) (A : nat -> nat -> Q) (K : region X -> nat -> Q) (T S : region X -> nat -> nat -> Q) :
  (forall a b, (a < n)%nat -> (b < n)%nat -> A a b == quadrature rs (fun r g => K r g * T r g a * S r g b)) ->
  sum n (fun a => sum n (fun b => v a * A a b * u b)) ==
  quadrature rs (fun r g => K r g * sum n (fun a => T r g a * v a) * sum n (fun b => S r g b * u b)).
Proof.
  intros H. transitivity (sum n (fun a => sum n (fun b => quadrature rs (fun r g => (v a * u b) * (K r g * T r g a * S r g b))))).
  - apply sum_ext. intros a Ha. apply sum_ext. intros b Hb. rewrite (H a b Ha Hb), <- quad_scal. ring.
  - transitivity (sum n (fun a => quadrature rs (fun r g => sum n (fun b => (v a * u b) * (K r g * T r g a * S r g b))))).
    + apply sum_ext. intros a _. apply quad_sum.
    + rewrite quad_sum. apply quad_ext. intros r g _ _. 
      transitivity (sum n (fun a => (T r g a * v a) * (K r g * sum n (fun b => S r g b * u b)))).
      * apply sum_ext. intros a _. rewrite <- sum_scal. rewrite <- sum_scal. apply sum_ext. intros b _. ring.
      * rewrite sum_scalr. ring.
Qed.
Lemma quad_linear {X} (rs : list (region X)) n (v : nat -> Q) (A : nat -> Q) (K : region X -> nat -> Q) (T : region X -> nat -> nat -> Q) :
  (forall a, (a < n)%nat -> A a == quadrature rs (fun r g => K r g * T r g a)) ->
  sum n (fun a => v a * A a) == quadrature rs (fun r g => K r g * sum n (fun a => T r g a * v a)).
Proof.
  intros H. transitivity (sum n (fun a => quadrature rs (fun r g => v a * (K r g * T r g a)))).
  - apply sum_ext. intros a Ha. rewrite (H a Ha), <- quad_scal. reflexivity.
  - rewrite quad_sum. apply quad_ext. intros r g _ _. rewrite <- sum_scal. apply sum_ext. intros; ring.
Qed.
