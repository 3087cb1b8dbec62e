(** * C77: local matrices of integral operators *)
From Coq Require Import List Arith Reals Lia Lra.
From Verif Require Import Tree Quadrature SpecQuadrature QuadratureFacts QuadratureMap Prop_Quadrature IntEval SpecIntEval.
Import ListNotations.
Open Scope R_scope.

Lemma nth_map {U V} (f : U -> V) u v l i : (i < length l)%nat -> nth i (map f l) v = f (nth i l u).
Proof. intros H. rewrite (nth_indep _ v (f u)) by (rewrite map_length; exact H). apply map_nth. Qed.
Lemma rentry_tab m n f i j : (i < m)%nat -> (j < n)%nat -> rentry (rtab m n f) i j = f i j.
Proof.
  intros Hi Hj. unfold rentry, rtab. rewrite (nth_map _ 0%nat) by (rewrite seq_length; exact Hi). rewrite (nth_map _ 0%nat) by (rewrite seq_length; exact Hj).
  rewrite !seq_nth by assumption. reflexivity.
Qed.
Lemma rtab_shape m n f : length (rtab m n f) = m /\ Forall (fun r => length r = n) (rtab m n f).
Proof.
  unfold rtab. split; [rewrite map_length, seq_length; reflexivity|]. apply Forall_forall. intros r I. apply in_map_iff in I. destruct I as [i [<- _]].
  rewrite map_length, seq_length. reflexivity.
Qed.

Section Facts.
Context {X : Type} (K : X -> X -> R) (m n : nat).
Definition val (f : option rmat) i j := match f with None => 0 | Some M => rentry M i j end.
Definition good (M : rmat) : Prop := length M = m /\ Forall (fun r => length r = n) M.

Lemma ip_pair_ok f ri rj : length ri = length rj ->
  exists M, ip_pair K m n f ri rj = Ok (Some M) /\ good M /\ forall i j, (i < m)%nat -> (j < n)%nat -> rentry M i j = val f i j + pair_term K ri rj i j.
Proof.
  intros L. unfold ip_pair. rewrite L, !Nat.ltb_irrefl. eexists. split; [reflexivity|]. split; [apply rtab_shape|].
  intros i j Hi Hj. rewrite rentry_tab by assumption. unfold val. destruct f; [reflexivity|]. rewrite rentry_tab by assumption. reflexivity.
Qed.
Lemma ip_inner_ok ri : forall regj f, (forall rj, In rj regj -> length ri = length rj) ->
  (forall M, f = Some M -> good M) ->
  exists f', ip_inner K m n f ri regj = Ok f' /\ (f' = None <-> f = None /\ regj = []) /\ (forall M, f' = Some M -> good M) /\
    forall i j, (i < m)%nat -> (j < n)%nat -> val f' i j = val f i j + rsum (map (fun rj => pair_term K ri rj i j) regj).
Proof.
  induction regj as [|rj rest IH]; intros f L G; cbn [ip_inner].
  - exists f. split; [reflexivity|]. split; [tauto|]. split; [exact G|]. intros. cbn [map]. rewrite rsum_nil. ring.
  - destruct (ip_pair_ok f ri rj (L rj (or_introl eq_refl))) as [M [E [GM V]]]. rewrite E. cbn [bind].
    destruct (IH (Some M) (fun r I => L r (or_intror I))) as [f' [E' [N [G' V']]]]; [intros M' Q; injection Q as <-; exact GM|].
    exists f'. split; [exact E'|]. split; [|split; [exact G'|]].
    + rewrite N. split; intros [A B]; discriminate.
    + intros i j Hi Hj. rewrite V' by assumption. unfold val at 1. rewrite V by assumption. cbn [map]. rewrite rsum_cons. ring.
Qed.
Lemma ip_outer_ok regj : forall regi f, (forall ri rj, In ri regi -> In rj regj -> length ri = length rj) ->
  (forall M, f = Some M -> good M) ->
  exists f', ip_outer K m n f regi regj = Ok f' /\ (f' = None <-> f = None /\ (regi = [] \/ regj = [])) /\ (forall M, f' = Some M -> good M) /\
    forall i j, (i < m)%nat -> (j < n)%nat -> val f' i j = val f i j + rsum (map (fun ri => rsum (map (fun rj => pair_term K ri rj i j) regj)) regi).
Proof.
  induction regi as [|ri rest IH]; intros f L G; cbn [ip_outer].
  - exists f. split; [reflexivity|]. split; [tauto|]. split; [exact G|]. intros. cbn [map]. rewrite rsum_nil. ring.
  - destruct (ip_inner_ok ri regj f (fun rj I => L ri rj (or_introl eq_refl) I) G) as [f1 [E [N [G1 V]]]]. rewrite E. cbn [bind].
    destruct (IH f1 (fun r rj I => L r rj (or_intror I)) G1) as [f' [E' [N' [G' V']]]].
    exists f'. split; [exact E'|]. split; [|split; [exact G'|]].
    + rewrite N', N. split; [intros [[A B] C]; tauto|]. intros [A [B|B]]; [discriminate|]. tauto.
    + intros i j Hi Hj. rewrite V', V by assumption. cbn [map]. rewrite rsum_cons. ring.
Qed.
Lemma pair_nodes regi regj i j :
  rsum (map (fun ri => rsum (map (fun rj => pair_term K ri rj i j) regj)) regi) =
  double_sum K (fun p => nth i (q_phi p) 0) (fun q => nth j (q_phi q) 0) (concat regi) (concat regj).
Proof.
  unfold double_sum. rewrite <- (map_id regi) at 2. rewrite (rsum_concat _ _ _ (fun r => r)). apply rsum_ext. intros ri _.
  transitivity (rsum (map (fun p => rsum (map (fun rj => q_w p * nth i (q_phi p) 0 * rsum (map (fun q => K (q_x p) (q_x q) * (q_w q * nth j (q_phi q) 0)) rj)) regj)) ri)).
  - unfold pair_term. rewrite rsum_swap. reflexivity.
  - apply rsum_ext. intros p _. rewrite <- (map_id regj) at 2. rewrite (rsum_concat _ _ _ (fun r => r)). apply rsum_ext. intros rj _.
    rewrite <- rsum_scal. apply rsum_ext. intros q _. ring.
Qed.
Lemma ip_eval_entries regi regj A : ip_eval K m n regi regj = Ok (Some A) ->
  (forall ri rj, In ri regi -> In rj regj -> length ri = length rj) ->
  good A /\ forall i j, (i < m)%nat -> (j < n)%nat -> rentry A i j = double_sum K (fun p => nth i (q_phi p) 0) (fun q => nth j (q_phi q) 0) (concat regi) (concat regj).
Proof.
  intros E L. unfold ip_eval in E. destruct (ip_outer_ok regj regi None L ltac:(discriminate)) as [f' [E' [N [G V]]]]. rewrite E in E'. injection E' as <-.
  split; [apply G; reflexivity|]. intros i j Hi Hj. specialize (V i j Hi Hj). unfold val in V. rewrite V, pair_nodes. ring.
Qed.
(** a result means that the rules fit *)
Lemma ip_inner_fit ri : forall regj f f', ip_inner K m n f ri regj = Ok f' -> forall rj, In rj regj -> length ri = length rj.
Proof.
  induction regj as [|r rest IH]; intros f f' E rj I; [destruct I|]. cbn [ip_inner] in E.
  destruct (ip_pair K m n f ri r) as [g|] eqn:Ep; [|discriminate]. cbn [bind] in E. destruct I as [->|I]; [|exact (IH _ _ E rj I)].
  unfold ip_pair in Ep. destruct (length rj <? length ri)%nat eqn:A; [discriminate|]. destruct (length ri <? length rj)%nat eqn:B; [discriminate|].
  apply Nat.ltb_ge in A, B. lia.
Qed.
Lemma ip_outer_fit regj : forall regi f f', ip_outer K m n f regi regj = Ok f' -> forall ri rj, In ri regi -> In rj regj -> length ri = length rj.
Proof.
  induction regi as [|r rest IH]; intros f f' E ri rj I J; [destruct I|]. cbn [ip_outer] in E.
  destruct (ip_inner K m n f r regj) as [g|] eqn:Ep; [|discriminate]. cbn [bind] in E. destruct I as [->|I]; [exact (ip_inner_fit _ _ _ _ Ep rj J)|exact (IH _ _ E ri rj I J)].
Qed.
End Facts.

(** The local matrix of an IPForm is the double quadrature sum over the nodes of both
    cells: applied to coefficient vectors it gives the sum for their combinations *)
Theorem C77_value : forall X (K : X -> X -> R) m n regi regj,
  (forall A, ip_eval K m n regi regj = Ok (Some A) -> length A = m /\ Forall (fun r => length r = n) A /\
     forall u v, rsum (map (fun i => rsum (map (fun j => u i * rentry A i j * v j) (seq 0 n))) (seq 0 m)) =
                 double_sum K (value_at m u) (value_at n v) (concat regi) (concat regj)) /\
  (ip_eval K m n regi regj = Ok None <-> regi = [] \/ regj = []) /\
  ((exists f, ip_eval K m n regi regj = Ok f) <-> forall ri rj, In ri regi -> In rj regj -> length ri = length rj).
Proof.
  intros X K m n regi regj. split; [|split].
  - intros A E. destruct (ip_eval_entries K m n regi regj A E (ip_outer_fit K m n regj regi _ _ E)) as [[G1 G2] V]. split; [exact G1|]. split; [exact G2|]. intros u v.
    transitivity (rsum (map (fun i => rsum (map (fun j => rsum (map (fun p => rsum (map (fun q => u i * nth i (q_phi p) 0 * (v j * nth j (q_phi q) 0) * (q_w p * K (q_x p) (q_x q) * q_w q)) (concat regj))) (concat regi))) (seq 0 n))) (seq 0 m))).
    { apply rsum_ext. intros i Ii. apply rsum_ext. intros j Ij. apply in_seq in Ii, Ij. rewrite V by lia. unfold double_sum.
      transitivity ((u i * v j) * rsum (map (fun p => rsum (map (fun q => q_w p * nth i (q_phi p) 0 * K (q_x p) (q_x q) * (q_w q * nth j (q_phi q) 0)) (concat regj))) (concat regi))); [ring|].
      rewrite <- rsum_scal. apply rsum_ext. intros p _. rewrite <- rsum_scal. apply rsum_ext. intros q _. ring. }
    transitivity (rsum (map (fun i => rsum (map (fun p => rsum (map (fun j => rsum (map (fun q => u i * nth i (q_phi p) 0 * (v j * nth j (q_phi q) 0) * (q_w p * K (q_x p) (q_x q) * q_w q)) (concat regj))) (seq 0 n))) (concat regi))) (seq 0 m))).
    { apply rsum_ext. intros i _. apply rsum_swap. }
    rewrite rsum_swap. unfold double_sum. apply rsum_ext. intros p _.
    transitivity (rsum (map (fun i => rsum (map (fun q => rsum (map (fun j => u i * nth i (q_phi p) 0 * (v j * nth j (q_phi q) 0) * (q_w p * K (q_x p) (q_x q) * q_w q)) (seq 0 n))) (concat regj))) (seq 0 m))).
    { apply rsum_ext. intros i _. apply rsum_swap. }
    rewrite rsum_swap. apply rsum_ext. intros q _. unfold value_at.
    set (T := rsum (map (fun j => v j * nth j (q_phi q) 0) (seq 0 n))).
    transitivity (q_w p * K (q_x p) (q_x q) * q_w q * T * rsum (map (fun i => u i * nth i (q_phi p) 0) (seq 0 m))); [|ring].
    rewrite <- rsum_scal. apply rsum_ext. intros i _.
    transitivity (u i * nth i (q_phi p) 0 * (q_w p * K (q_x p) (q_x q) * q_w q) * T); [|ring].
    unfold T. rewrite <- rsum_scal. apply rsum_ext. intros; ring.
  - unfold ip_eval. split; intros H.
    + destruct (ip_outer_ok K m n regj regi None (ip_outer_fit K m n regj regi _ _ H) ltac:(discriminate)) as [f' [E' [N _]]]. rewrite H in E'. injection E' as <-. apply N. reflexivity.
    + destruct (ip_outer_ok K m n regj regi None) as [f' [E' [N _]]]; [intros ri rj A B; destruct H as [->| ->]; [destruct A|destruct B]|discriminate|].
      rewrite E'. f_equal. apply N. auto.
  - split; [intros [f E]; exact (ip_outer_fit K m n regj regi _ _ E)|]. intros L.
    destruct (ip_outer_ok K m n regj regi None L ltac:(discriminate)) as [f' [E' _]]. exists f'. exact E'.
Qed.
Print Assumptions C77_value.

Lemma double_sum_swap {X} (K : X -> X -> R) u v P Q : (forall x y, K x y = K y x) -> double_sum K u v P Q = double_sum K v u Q P.
Proof. intros S. unfold double_sum. rewrite rsum_swap. apply rsum_ext. intros q _. apply rsum_ext. intros p _. rewrite (S (q_x p)). ring. Qed.
(** A symmetric kernel and the same functions for test and trial space: the matrix of
    (cj, ci) is the transpose of that of (ci, cj), as the assembly shortcut assumes *)
Theorem C77_transpose : forall X (K : X -> X -> R) m n regi regj A B, (forall x y, K x y = K y x) ->
  ip_eval K m n regi regj = Ok (Some A) -> ip_eval K n m regj regi = Ok (Some B) ->
  forall i j, (i < m)%nat -> (j < n)%nat -> rentry B j i = rentry A i j.
Proof.
  intros X K m n regi regj A B S EA EB i j Hi Hj.
  rewrite (proj2 (ip_eval_entries K m n regi regj A EA (ip_outer_fit K m n regj regi _ _ EA)) i j Hi Hj).
  rewrite (proj2 (ip_eval_entries K n m regj regi B EB (ip_outer_fit K n m regi regj _ _ EB)) j i Hj Hi).
  apply double_sum_swap. exact S.
Qed.
Print Assumptions C77_transpose.

(** A positive semidefinite kernel gives a positive semidefinite form: cells with
    their regions, local matrices A of all pairs, coefficients v of every cell *)
Theorem C77_semidefinite : forall X (K : X -> X -> R) m (cells : list (list (list (qnode X)))) (A : nat -> nat -> rmat) (v : nat -> nat -> R),
  kernel_semidefinite K ->
  (forall a b, (a < length cells)%nat -> (b < length cells)%nat -> ip_eval K m m (nth a cells []) (nth b cells []) = Ok (Some (A a b))) ->
  0 <= rsum (map (fun a => rsum (map (fun b =>
         rsum (map (fun i => rsum (map (fun j => v a i * rentry (A a b) i j * v b j) (seq 0 m))) (seq 0 m))) (seq 0 (length cells)))) (seq 0 (length cells))).
Proof.
  intros X K m cells A v PS E.
  set (L := fun a => map (fun p => (q_x p, q_w p * value_at m (v a) p)) (concat (nth a cells []))).
  assert (Q := PS (concat (map L (seq 0 (length cells))))).
  match type of Q with 0 <= ?T => match goal with |- 0 <= ?U => replace U with T; [exact Q|] end end.
  rewrite rsum_concat. apply rsum_ext. intros a Ia.
  transitivity (rsum (map (fun p => rsum (map (fun b => rsum (map (fun q => snd p * K (fst p) (fst q) * snd q) (L b))) (seq 0 (length cells)))) (L a))).
  { apply rsum_ext. intros p _. apply rsum_concat. }
  rewrite rsum_swap. apply rsum_ext. intros b Ib. apply in_seq in Ia, Ib.
  destruct (C77_value X K m m (nth a cells []) (nth b cells [])) as [V _]. rewrite (proj2 (proj2 (V _ (E a b ltac:(lia) ltac:(lia)))) (v a) (v b)).
  unfold L, double_sum. rewrite map_map. apply rsum_ext. intros p _. rewrite map_map. apply rsum_ext. intros q _. cbn [fst snd]. ring.
Qed.
Print Assumptions C77_semidefinite.

(** Intervals, n-point rules: if kernel times test times trial function is polynomial
    with exponents below 2n, the entries are the double integrals *)
Lemma nth_phi phi p i : nth i (map (fun f : R -> R => f p) phi) 0 = nth i phi (fun _ => 0) p.
Proof. exact (map_nth (fun f : R -> R => f p) phi (fun _ => 0) i). Qed.
Theorem C77_interval : forall n l a b c d K phi psi, (1 <= n <= 5)%nat -> interval_rule n = Ok l ->
  exists A, ip_eval K (length phi) (length psi) [nodes_of phi (map_interval a b l)] [nodes_of psi (map_interval c d l)] = Ok (Some A) /\
  forall i j, (i < length phi)%nat -> (j < length psi)%nat ->
    let g := fun x y => nth i phi (fun _ => 0) x * K x y * nth j psi (fun _ => 0) y in
    poly2 (2 * n) (2 * n) g -> integral2 g a b c d (rentry A i j).
Proof.
  intros n l a b c d K phi psi L E.
  assert (Len : forall ri rj, In ri [nodes_of phi (map_interval a b l)] -> In rj [nodes_of psi (map_interval c d l)] -> length ri = length rj).
  { intros ri rj [<-|[]] [<-|[]]. unfold nodes_of, map_interval. rewrite !map_length. reflexivity. }
  destruct (ip_outer_ok K (length phi) (length psi) [nodes_of psi (map_interval c d l)] [nodes_of phi (map_interval a b l)] None Len ltac:(discriminate)) as [f' [E' [N _]]].
  destruct f' as [A|]; [|destruct (proj1 N eq_refl) as [_ [Z|Z]]; discriminate]. exists A. split; [exact E'|].
  intros i j Hi Hj g P. destruct (ip_eval_entries K _ _ _ _ A E' Len) as [_ V]. rewrite (V i j Hi Hj). cbn [concat]. rewrite !app_nil_r.
  assert (EX : exact (2 * n) (map_interval a b l) a b /\ exact (2 * n) (map_interval c d l) c d).
  { destruct (C46_interval n l a b L E) as [X1 _]. destruct (C46_interval n l c d L E) as [X2 _]. split; assumption. }
  replace (double_sum K _ _ _ _) with (quadrature2 (product (map_interval a b l) (map_interval c d l)) g).
  - apply (product_exact (2 * n) (2 * n)); tauto.
  - unfold double_sum, quadrature2, product, nodes_of. rewrite rsum_concat, map_map. apply rsum_ext. intros p _. rewrite !map_map. apply rsum_ext. intros q _.
    cbn [fst snd q_w q_x q_phi]. rewrite !nth_phi. unfold g. ring.
Qed.
Print Assumptions C77_interval.

(** IIForm: row i of the matrix integrates K(x_i, y) against the trial functions over
    the first region; exact on intervals for polynomials *)
Theorem C77_collocation_partial : forall n l c d K psi pts, (1 <= n <= 5)%nat -> interval_rule n = Ok l ->
  exists A, ii_eval K (length psi) pts [nodes_of psi (map_interval c d l)] = Some A /\ length A = length pts /\
  forall i j, (i < length pts)%nat -> (j < length psi)%nat ->
    let g := fun y => K (nth i pts 0) y * nth j psi (fun _ => 0) y in
    poly (2 * n) g -> integral g c d (rentry A i j).
Proof.
  intros n l c d K psi pts L E. eexists. split; [reflexivity|]. split; [apply map_length|]. intros i j Hi Hj g P.
  unfold rentry. rewrite (nth_map _ 0) by exact Hi. rewrite (nth_map _ 0%nat) by (rewrite seq_length; exact Hj). rewrite seq_nth by exact Hj. cbn [plus].
  destruct (C46_interval n l c d L E) as [X1 _]. unfold nodes_of. rewrite map_map.
  replace (rsum _) with (quadrature1 (map_interval c d l) g); [apply X1; exact P|].
  unfold quadrature1. apply rsum_ext. intros q _. cbn [q_x q_w q_phi]. rewrite nth_phi. unfold g. ring.
Qed.
Print Assumptions C77_collocation_partial.
(** Further regions of the cell (two marked half-edges, 'ds') are ignored: each of two
    regions has one node with weight 1 and value 1, the kernel is 1, the entry is 1 *)
Theorem C77_collocation_refuted : ~ (forall (K : R -> R -> R) n pts regs A i j, regs <> [] -> ii_eval K n pts regs = Some A -> (i < length pts)%nat -> (j < n)%nat ->
  rentry A i j = rsum (map (fun q => K (nth i pts 0) (q_x q) * (q_w q * nth j (q_phi q) 0)) (concat regs))).
Proof.
  intros H. specialize (H (fun _ _ => 1) 1%nat [0] [[mkQ 0 1 [1]]; [mkQ 1 1 [1]]] _ 0%nat 0%nat ltac:(discriminate) eq_refl ltac:(cbn; lia) ltac:(lia)).
  unfold rentry in H. cbn in H. lra.
Qed.
Print Assumptions C77_collocation_refuted.
(** the kernel xy and hat functions on [0, 1] *)
Example C77_case : exists A, ip_eval (fun x y : R => x * y) 2 2 [nodes_of [(fun x => 1 - x); (fun x => x)] (map_interval 0 1 (unit_rule (gauss_ref 2)))]
    [nodes_of [(fun x => 1 - x); (fun x => x)] (map_interval 0 1 (unit_rule (gauss_ref 2)))] = Ok (Some A) /\
  integral2 (fun x y => x * (x * y) * y) 0 1 0 1 (rentry A 1 1) /\ rentry A 1 1 = / 9.
Proof.
  destruct (C77_interval 2 (unit_rule (gauss_ref 2)) 0 1 0 1 (fun x y => x * y) [(fun x => 1 - x); (fun x => x)] [(fun x => 1 - x); (fun x => x)] ltac:(lia) eq_refl) as [A [E V]].
  exists A. split; [exact E|]. assert (P : poly2 4 4 (fun x y : R => x * (x * y) * y)).
  { exists [(1, 2%nat, 2%nat)]. split; [repeat constructor; cbn; lia|]. intros x y. cbn. ring. }
  assert (Q := V 1%nat 1%nat ltac:(cbn; lia) ltac:(cbn; lia) P). split; [exact Q|].
  apply (integral2_unique (fun x y => x * (x * y) * y) (fun x y => x * (x * y) * y) 0 1 0 1); [reflexivity|exact Q|].
  exists (fun y => / 3 * (y ^ 2)). split.
  - intros y. exists (fun x => y ^ 2 * (x ^ 3 / INR 3)). split; [|cbn; field].
    apply (antiderivative_ext _ (fun x => y ^ 2 * x ^ 2)); [intros x; ring|]. apply antiderivative_scal. exact (antiderivative_power 2).
  - exists (fun y => / 3 * (y ^ 3 / INR 3)). split; [|cbn; field]. apply antiderivative_scal. exact (antiderivative_power 2).
Qed.
