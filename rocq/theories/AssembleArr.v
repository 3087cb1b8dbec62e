(** * Consolidated arrays *)
From Coq Require Import List Arith Bool QArith Lia.
From Verif Require Import Tree TreeFacts Geom Dof Solver SpecSolver SolverFacts SolverRun Basis Assemble SpecAssemble AssembleFacts AssembleRun AssembleCells.
Import ListNotations.
Open Scope Q_scope.

Lemma assign_eqns : forall l v c, (forall d, In d l -> (d < length v)%nat) -> NoDup l ->
  exists v' c', fold_res assign_eqn l (v, c) = Ok (v', c') /\
    (forall i d, nth_error l i = Some d -> nth_error v' d = Some (c + i)%nat) /\
    (forall d, ~ In d l -> nth_error v' d = nth_error v d).
Proof.
  induction l as [|d l IH]; intros v c Hl N; cbn [fold_res].
  - exists v, c. split; [reflexivity|]. split; [intros [|i] d E; discriminate|reflexivity].
  - unfold assign_eqn at 1. cbn [fst snd]. assert (Ld : (d < length v)%nat) by (apply Hl; left; reflexivity).
    apply Nat.ltb_lt in Ld as Lb. rewrite Lb. cbn [bind].
    apply NoDup_cons_iff in N. destruct N as [Nd N'].
    destruct (IH (set_nth d c v) (S c)) as [v' [c' [E [A B]]]]; [intros x Hx; rewrite set_nth_length; apply Hl; right; exact Hx|exact N'|].
    exists v', c'. split; [exact E|]. split.
    + intros [|i] x Ex; cbn in Ex.
      * injection Ex as <-. rewrite B by exact Nd. rewrite nth_set_nth_eq by exact Ld. f_equal. lia.
      * rewrite (A i x Ex). f_equal. lia.
    + intros x Hx. cbn in Hx. rewrite B by tauto. apply nth_set_nth_neq. tauto.
Qed.
Lemma make_d2e_list : forall l, NoDup l -> l <> [] -> (forall d, In d l -> (d <= last l 0)%nat) ->
  exists m, make_d2e l = Ok m /\ forall i, (i < length l)%nat -> dof_index m (nth i l 0%nat) = Ok i.
Proof.
  intros l N NE Hm. unfold make_d2e. destruct l as [|a r]; [congruence|]. set (l := a :: r) in *.
  destruct (assign_eqns l (repeat 0%nat (S (last l 0%nat))) 0) as [v [c [E [A B]]]]; [|exact N|].
  { intros d Hd. rewrite repeat_length. specialize (Hm d Hd). lia. }
  rewrite E. cbn [bind fst]. exists v. split; [reflexivity|]. intros i Hi. unfold dof_index.
  rewrite (A i (nth i l 0%nat)) by (apply nth_error_nth'; exact Hi). reflexivity.
Qed.

Lemma bincount_cons : forall n p l i, (i < n)%nat -> nth i (bincount n (p :: l)) 0 == (if (fst p =? i)%nat then snd p else 0) + nth i (bincount n l) 0.
Proof.
  intros n p l i Hi. unfold bincount. rewrite !nth_map_seq by exact Hi. cbn [filter]. destruct (fst p =? i)%nat; cbn [map fold_right]; ring.
Qed.
Lemma bincount_nil : forall n i, (i < n)%nat -> nth i (bincount n []) 0 == 0.
Proof. intros n i Hi. unfold bincount. rewrite nth_map_seq by exact Hi. reflexivity. Qed.
Lemma bincount_total : forall n (a : nat -> Q) l, (forall p, In p l -> (fst p < n)%nat) ->
  sum n (fun i => a i * nth i (bincount n l) 0) == total (fun p => a (fst p) * snd p) l.
Proof.
  intros n a. induction l as [|p l IH]; intros B.
  - rewrite total_nil. apply sum_zero. intros i Hi. rewrite bincount_nil by exact Hi. ring.
  - rewrite total_cons, <- IH by (intros; apply B; right; assumption).
    transitivity (sum n (fun i => (if (fst p =? i)%nat then a i * snd p else 0) + a i * nth i (bincount n l) 0)).
    { apply sum_ext. intros i Hi. rewrite bincount_cons by exact Hi. destruct (fst p =? i)%nat; ring. }
    rewrite sum_plus, (sum_one n (fst p)).
    + rewrite Nat.eqb_refl. reflexivity.
    + apply B. left. reflexivity.
    + intros i _ N. destruct (Nat.eqb_spec (fst p) i); [congruence|reflexivity].
Qed.
Lemma coo_total : forall n m (a b : nat -> Q) l, (forall t, In t l -> (fst (fst t) < n)%nat /\ (snd (fst t) < m)%nat) ->
  sum n (fun i => sum m (fun j => a i * coo_entry l i j * b j)) == total (fun t => a (fst (fst t)) * snd t * b (snd (fst t))) l.
Proof.
  intros n m a b. induction l as [|[[i0 j0] q] l IH]; intros B.
  - rewrite total_nil. apply sum_zero. intros i Hi. apply sum_zero. intros j Hj. unfold coo_entry. cbn. ring.
  - rewrite total_cons, <- IH by (intros; apply B; right; assumption).
    destruct (B (i0, j0, q) (or_introl eq_refl)) as [Bi Bj]. cbn [fst snd] in *.
    transitivity (sum n (fun i => (if (i0 =? i)%nat then a i * q * b j0 else 0) + sum m (fun j => a i * coo_entry l i j * b j))).
    { apply sum_ext. intros i Hi.
      transitivity (sum m (fun j => (if (j0 =? j)%nat then (if (i0 =? i)%nat then a i * q * b j else 0) else 0) + a i * coo_entry l i j * b j)).
      { apply sum_ext. intros j Hj. rewrite coo_cons. cbn [fst snd]. destruct (i0 =? i)%nat, (j0 =? j)%nat; cbn [andb]; ring. }
      rewrite sum_plus, (sum_one m j0); [rewrite Nat.eqb_refl; reflexivity|exact Bj|].
      intros j _ N. destruct (Nat.eqb_spec j0 j); [congruence|reflexivity]. }
    rewrite sum_plus, (sum_one n i0); [rewrite Nat.eqb_refl; reflexivity|exact Bi|].
    intros i _ N. destruct (Nat.eqb_spec i0 i); [congruence|reflexivity].
Qed.

(** The position of a dof in a list *)
Fixpoint index_of (d : nat) (l : list nat) : nat :=
  match l with [] => 0%nat | x :: r => if (x =? d)%nat then 0%nat else S (index_of d r) end.
Lemma index_of_lt : forall d l, In d l -> (index_of d l < length l)%nat.
Proof. induction l as [|x l IH]; intros I; [destruct I|]. cbn. destruct (Nat.eqb_spec x d); [lia|]. destruct I as [I|I]; [congruence|]. specialize (IH I). lia. Qed.
Lemma nth_index_of : forall d l, In d l -> nth (index_of d l) l 0%nat = d.
Proof. induction l as [|x l IH]; intros I; [destruct I|]. cbn. destruct (Nat.eqb_spec x d); [assumption|]. destruct I as [I|I]; [congruence|]. exact (IH I). Qed.

Section Cons.
Context (order : list nat -> list nat) (O : lists_sets order).
Lemma order_d2e : forall l, l <> [] -> exists m, make_d2e (order l) = Ok m /\ forall d, In d l -> dof_index m d = Ok (index_of d (order l)).
Proof.
  intros l NE. destruct (O l) as [N [S L]].
  destruct (make_d2e_list (order l) N) as [m [E A]].
  - intros Q. destruct l as [|x l]; [congruence|]. assert (I : In x (order (x :: l))) by (apply S; left; reflexivity). rewrite Q in I. destruct I.
  - intros d I. apply L. apply S. exact I.
  - exists m. split; [exact E|]. intros d I. apply S in I. rewrite <- (A _ (index_of_lt _ _ I)). rewrite nth_index_of by exact I. reflexivity.
Qed.
Lemma order_nil : make_d2e (order []) = Err IndexError.
Proof. destruct (O []) as [_ [S _]]. destruct (order []) as [|x l] eqn:E; [reflexivity|]. exfalso. apply (S x). left. reflexivity. Qed.

Lemma consolidate1_ok : forall a, g1 a <> [] -> exists R, consolidate1 order a = Ok R /\
  v_dofs R = order (map fst (g1 a)) /\ length (v_vec R) = length (v_dofs R) /\
  forall v : vec, sum (length (v_dofs R)) (fun i => v (nth i (v_dofs R) 0%nat) * nth i (v_vec R) 0) == total (lin v) (g1 a).
Proof.
  intros a NE. unfold consolidate1. set (ud := order (map fst (g1 a))).
  destruct (order_d2e (map fst (g1 a))) as [m [E A]]; [destruct (g1 a); [congruence|discriminate]|]. fold ud in E, A. rewrite E. cbn [bind].
  rewrite (map_res_ok _ _ _ (fun p => (index_of (fst p) ud, snd p))).
  2: { intros p I. rewrite A by (apply in_map; exact I). reflexivity. }
  cbn [bind]. eexists. split; [reflexivity|]. cbn [v_dofs v_vec]. split; [reflexivity|].
  split; [unfold bincount; rewrite map_length, seq_length; reflexivity|]. intros v.
  destruct (O (map fst (g1 a))) as [_ [S _]]. fold ud in S.
  rewrite bincount_total.
  - rewrite total_map. apply total_ext. intros p I. cbn [fst snd]. unfold lin. rewrite nth_index_of; [reflexivity|]. apply S. apply in_map. exact I.
  - intros p I. apply in_map_iff in I. destruct I as [q [<- I]]. cbn. apply index_of_lt. apply S. apply in_map. exact I.
Qed.
Lemma consolidate1_inv : forall a R, consolidate1 order a = Ok R -> g1 a <> [].
Proof. intros a R E Q. unfold consolidate1 in E. rewrite Q in E. cbn [map] in E. rewrite order_nil in E. discriminate. Qed.

Definition x0_at (A : arrays2) (i : nat) : Q := match m_x0 A with Some x => nth i x 0 | None => 0 end.
Lemma consolidate2_ok : forall a, g2 a <> [] -> (forall r, In r (map fst (b2 a)) -> In r (map (fun t => fst (fst t)) (g2 a))) ->
  exists R, consolidate2 order a = Ok R /\
  m_rows R = order (map (fun t => fst (fst t)) (g2 a)) /\ m_cols R = order (map (fun t => snd (fst t)) (g2 a)) /\
  shape (length (m_rows R)) (length (m_cols R)) (m_mat R) = true /\
  (b2 a <> [] <-> m_x0 R <> None) /\ (forall x, m_x0 R = Some x -> length x = length (m_rows R)) /\
  forall v x : vec,
    sum (length (m_rows R)) (fun i => sum (length (m_cols R)) (fun j => v (nth i (m_rows R) 0%nat) * entry (m_mat R) i j * x (nth j (m_cols R) 0%nat))) +
    sum (length (m_rows R)) (fun i => v (nth i (m_rows R) 0%nat) * x0_at R i) == total (blin v x) (g2 a) + total (lin v) (b2 a).
Proof.
  intros a NE Hb. unfold consolidate2. set (rs := map (fun t => fst (fst t)) (g2 a)) in *. set (cs := map (fun t => snd (fst t)) (g2 a)).
  set (ur := order rs). set (uc := order cs).
  destruct (order_d2e rs) as [mr [Er Ar]]; [unfold rs; destruct (g2 a); [congruence|discriminate]|].
  destruct (order_d2e cs) as [mc [Ec Ac]]; [unfold cs; destruct (g2 a); [congruence|discriminate]|].
  fold ur in Er, Ar. fold uc in Ec, Ac. rewrite Er, Ec. cbn [bind].
  rewrite (map_res_ok _ _ _ (fun p => (index_of (fst p) ur, snd p))).
  2: { intros p I. rewrite Ar by (apply Hb; apply in_map; exact I). reflexivity. }
  cbn [bind].
  assert (Ir : forall t, In t (g2 a) -> In (fst (fst t)) rs) by (intros t I; apply (in_map (fun t => fst (fst t))); exact I).
  assert (Ic : forall t, In t (g2 a) -> In (snd (fst t)) cs) by (intros t I; apply (in_map (fun t => snd (fst t))); exact I).
  rewrite (map_res_ok _ _ _ (fun t => (index_of (fst (fst t)) ur, index_of (snd (fst t)) uc, snd t))).
  2: { intros t I. rewrite Ar by (apply Ir; exact I). cbn [bind]. rewrite Ac by (apply Ic; exact I). reflexivity. }
  cbn [bind]. eexists. split; [reflexivity|]. cbn [m_rows m_cols m_mat m_x0]. split; [reflexivity|]. split; [reflexivity|].
  split; [apply shape_tab|]. split; [destruct (b2 a); cbn; split; congruence|].
  split. { destruct (map (fun p => (index_of (fst p) ur, snd p)) (b2 a)) as [|p0 l0]; intros x Q; [discriminate|]. injection Q as <-. unfold bincount. rewrite map_length, seq_length. reflexivity. }
  intros v x.
  destruct (O rs) as [_ [Sr _]]. fold ur in Sr. destruct (O cs) as [_ [Sc _]]. fold uc in Sc.
  apply Qplus_comp.
  - transitivity (sum (length ur) (fun i => sum (length uc) (fun j => v (nth i ur 0%nat) *
       coo_entry (map (fun t => (index_of (fst (fst t)) ur, index_of (snd (fst t)) uc, snd t)) (g2 a)) i j * x (nth j uc 0%nat)))).
    { apply sum_ext. intros i Hi. apply sum_ext. intros j Hj. rewrite entry_tab by assumption. reflexivity. }
    rewrite (coo_total (length ur) (length uc) (fun i => v (nth i ur 0%nat)) (fun j => x (nth j uc 0%nat))).
    + rewrite total_map. apply total_ext. intros t I. cbn [fst snd]. unfold blin.
      rewrite nth_index_of by (apply Sr; apply Ir; exact I). rewrite nth_index_of by (apply Sc; apply Ic; exact I). reflexivity.
    + intros t I. apply in_map_iff in I. destruct I as [q [<- I]]. cbn. split; apply index_of_lt; [apply Sr; apply Ir|apply Sc; apply Ic]; exact I.
  - transitivity (sum (length ur) (fun i => v (nth i ur 0%nat) * nth i (bincount (length ur) (map (fun p => (index_of (fst p) ur, snd p)) (b2 a))) 0)).
    { apply sum_ext. intros i Hi. unfold x0_at. cbn [m_x0]. destruct (b2 a); [cbn [map]; rewrite bincount_nil by exact Hi; reflexivity|reflexivity]. }
    rewrite (bincount_total (length ur) (fun i => v (nth i ur 0%nat))).
    + rewrite total_map. apply total_ext. intros p I. cbn [fst snd]. unfold lin. rewrite nth_index_of; [reflexivity|]. apply Sr. apply Hb. apply in_map. exact I.
    + intros p I. apply in_map_iff in I. destruct I as [q [<- I]]. cbn. apply index_of_lt. apply Sr. apply Hb. apply in_map. exact I.
Qed.
Lemma consolidate2_inv : forall a R, consolidate2 order a = Ok R -> g2 a <> [].
Proof. intros a R E Q. unfold consolidate2 in E. rewrite Q in E. cbn [map] in E. rewrite order_nil in E. discriminate. Qed.
End Cons.
