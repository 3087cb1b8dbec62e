(** * An exact solver for linear systems over the rationals: Gauss elimination.  It is not a model of
    code in the repository; it stands for scipy's spsolve in the examples and shows that the
    assumptions about the solver can be met. *)
From Coq Require Import List Arith Bool Lia Permutation QArith Lqa Qfield.
From Verif Require Import Solver SpecSolver SolverFacts SpecAssemble SpecExact.
Import ListNotations.
Open Scope Q_scope.

Notation sysrow := (list Q * Q)%type.
Fixpoint dot (r x : list Q) : Q := match r, x with u :: r, y :: x => u * y + dot r x | _, _ => 0 end.
Fixpoint pick (rows : list sysrow) : option (sysrow * list sysrow) :=
  match rows with
  | [] => None
  | r :: rest => if Qeq_bool (nth 0 (fst r) 0) 0 then match pick rest with Some (p, l) => Some (p, r :: l) | None => None end else Some (r, rest)
  end.
Definition axpy (k : Q) (r p : list Q) : list Q := map (fun uv => Qred (fst uv - k * snd uv)) (combine r p).
Definition elim (p r : sysrow) : sysrow :=
  let k := nth 0 (fst r) 0 / nth 0 (fst p) 0 in (axpy k (tl (fst r)) (tl (fst p)), Qred (snd r - k * snd p)).
Fixpoint gauss (n : nat) (rows : list sysrow) : option (list Q) :=
  match n with
  | O => Some []
  | S n => match pick rows with
           | None => None
           | Some (p, rest) => match gauss n (map (elim p) rest) with
                               | None => None
                               | Some y => Some (Qred ((snd p - dot (tl (fst p)) y) / nth 0 (fst p) 0) :: y)
                               end
           end
  end.
Definition gauss_solver (A : mat) (m : nat) (b : mat) : option mat :=
  if shape (length A) 1 b then match gauss (length A) (combine A (map (fun r => nth 0 r 0) b)) with Some x => Some (map (fun v => [v]) x) | None => None end else None.

Lemma pick_some rows p l : pick rows = Some (p, l) -> Permutation rows (p :: l) /\ ~ nth 0 (fst p) 0 == 0.
Proof.
  revert p l. induction rows as [|r rows IH]; intros p l E; cbn in E; [discriminate|]. destruct (Qeq_bool (nth 0 (fst r) 0) 0) eqn:Q.
  - destruct (pick rows) as [[p' l']|]; [|discriminate]. injection E as <- <-. destruct (IH p' l' eq_refl) as [P N]. split; [|exact N]. rewrite P. apply perm_swap.
  - injection E as <- <-. split; [reflexivity|]. apply Qeq_bool_neq. exact Q.
Qed.
Lemma pick_none rows : pick rows = None -> forall r, In r rows -> nth 0 (fst r) 0 == 0.
Proof.
  induction rows as [|r rows IH]; intros E r' I; [destruct I|]. cbn in E. destruct (Qeq_bool (nth 0 (fst r) 0) 0) eqn:Q; [|discriminate]. destruct I as [<-|I]; [apply Qeq_bool_iff; exact Q|].
  apply IH; [|exact I]. destruct (pick rows) as [[p l]|]; [discriminate|reflexivity].
Qed.
Lemma dot_axpy k r : forall p x, length r = length p -> dot (axpy k r p) x == dot r x - k * dot p x.
Proof. induction r as [|u r IH]; intros [|v p] x E; cbn in E; try discriminate; [cbn; ring|]. destruct x as [|y x]; [cbn; ring|].
  unfold axpy. cbn [combine map dot fst snd]. fold (axpy k r p). rewrite Qred_correct, IH by lia. ring. Qed.
Lemma axpy_len k r p : length r = length p -> length (axpy k r p) = length r.
Proof. intros E. unfold axpy. rewrite map_length, combine_length. lia. Qed.
Definition wide (n : nat) (rows : list sysrow) : Prop := forall r, In r rows -> length (fst r) = n.
Lemma elim_wide n p rest : wide (S n) (p :: rest) -> wide n (map (elim p) rest).
Proof.
  intros W r I. apply in_map_iff in I. destruct I as [r' [<- I]]. pose proof (W p (or_introl eq_refl)) as W1. pose proof (W r' (or_intror I)) as W2. unfold elim. cbn [fst].
  rewrite axpy_len; destruct (fst p), (fst r'); cbn [length tl] in *; try discriminate; lia.
Qed.
Lemma row_split n (r : list Q) x y : length r = S n -> dot r (x :: y) == nth 0 r 0 * x + dot (tl r) y.
Proof. destruct r; cbn; [discriminate|reflexivity]. Qed.
Lemma elim_dot n p r y : length (fst p) = S n -> length (fst r) = S n -> ~ nth 0 (fst p) 0 == 0 ->
  forall x, nth 0 (fst p) 0 * x + dot (tl (fst p)) y == snd p -> (dot (fst (elim p r)) y == snd (elim p r) <-> nth 0 (fst r) 0 * x + dot (tl (fst r)) y == snd r).
Proof.
  intros L1 L2 N x E. unfold elim. cbn [fst snd]. rewrite Qred_correct, dot_axpy by (destruct (fst p), (fst r); cbn in *; lia).
  set (u := nth 0 (fst r) 0) in *. set (w := nth 0 (fst p) 0) in *. assert (X : u * x == u / w * (snd p - dot (tl (fst p)) y)) by (rewrite <- E; field; exact N).
  rewrite X. set (k := u / w). split; intros H; lra.
Qed.
Lemma gauss_exact n : forall rows x, wide n rows -> length rows = n -> gauss n rows = Some x -> length x = n /\ forall r, In r rows -> dot (fst r) x == snd r.
Proof.
  induction n as [|n IH]; intros rows x W Lr E; cbn [gauss] in E.
  - injection E as <-. split; [reflexivity|]. destruct rows; [intros r []|discriminate].
  - destruct (pick rows) as [[p rest]|] eqn:Ep; [|discriminate]. destruct (pick_some _ _ _ Ep) as [P N]. destruct (gauss n (map (elim p) rest)) as [y|] eqn:Ey; [|discriminate].
    apply (f_equal (fun o => match o with Some l => l | None => [] end)) in E. cbn beta iota in E. subst x.
    assert (W' : wide (S n) (p :: rest)) by (intros r I; apply W; apply (Permutation_in _ (Permutation_sym P)); exact I).
    destruct (IH _ y (elim_wide n p rest W')) as [Ly Hy]; [rewrite map_length; apply Permutation_length in P; cbn in P; lia|exact Ey|].
    split; [cbn; lia|]. set (x := (snd p - dot (tl (fst p)) y) / nth 0 (fst p) 0). assert (Ex : nth 0 (fst p) 0 * x + dot (tl (fst p)) y == snd p) by (unfold x; field; exact N).
    intros r I. assert (Lp := W' p (or_introl eq_refl)). rewrite (row_split n) by (apply W; exact I). rewrite Qred_correct. fold x. apply (Permutation_in _ P) in I. destruct I as [<-|I]; [exact Ex|].
    apply (elim_dot n p r y Lp (W' r (or_intror I)) N x Ex). apply Hy. apply in_map. exact I.
Qed.
Definition trivial_kernel (n : nat) (rows : list sysrow) : Prop := forall x, length x = n -> (forall r, In r rows -> dot (fst r) x == 0) -> forall y, In y x -> y == 0.
Lemma dot_zeros r k : dot r (repeat 0 k) == 0.
Proof. revert k. induction r as [|u r IH]; intros [|k]; cbn; try reflexivity. rewrite IH. ring. Qed.
Lemma gauss_total n : forall rows, wide n rows -> trivial_kernel n rows -> gauss n rows <> None.
Proof.
  induction n as [|n IH]; intros rows W K; cbn; [discriminate|]. destruct (pick rows) as [[p rest]|] eqn:Ep.
  - destruct (pick_some _ _ _ Ep) as [P N]. assert (W' : wide (S n) (p :: rest)) by (intros r I; apply W; apply (Permutation_in _ (Permutation_sym P)); exact I).
    assert (Lp := W' p (or_introl eq_refl)).
    destruct (gauss n (map (elim p) rest)) eqn:Ey; [discriminate|]. exfalso. refine (IH _ (elim_wide n p rest W') _ Ey). intros y Ly Hy z Iz.
    set (x := (0 - dot (tl (fst p)) y) / nth 0 (fst p) 0). assert (Ex : nth 0 (fst p) 0 * x + dot (tl (fst p)) y == 0) by (unfold x; field; exact N).
    apply (K (x :: y)); [cbn; lia| |right; exact Iz]. intros r I. rewrite (row_split n) by (apply W; exact I). apply (Permutation_in _ P) in I. destruct I as [<-|I]; [exact Ex|].
    pose proof (elim_dot n (fst p, 0) (fst r, 0) y Lp (W' r (or_intror I)) N x Ex) as D. cbn [fst snd] in D. apply D.
    assert (H := Hy (elim p r) (in_map _ _ _ I)). unfold elim in *. cbn [fst snd] in *. rewrite H, Qred_correct. ring.
  - exfalso. pose proof (K (1 :: repeat 0 n) ltac:(cbn; rewrite repeat_length; reflexivity)) as K1. assert (Z : (1 == 0)%Q); [|discriminate Z]. apply K1; [|left; reflexivity].
    intros r I. rewrite (row_split n) by (apply W; exact I). rewrite dot_zeros, (pick_none rows Ep r I). ring.
Qed.

(** ** the assumptions about the solver *)
Lemma shape_len r c M : shape r c M = true -> length M = r /\ forall i, (i < r)%nat -> length (nth i M []) = c.
Proof.
  unfold shape. intros E. apply andb_prop in E. destruct E as [E1 E2]. apply Nat.eqb_eq in E1. split; [exact E1|]. intros i Hi. rewrite forallb_forall in E2. apply Nat.eqb_eq. apply E2. apply nth_In. lia.
Qed.
Lemma sum_shift n g : sum (S n) g == g 0%nat + sum n (fun i => g (S i)).
Proof. unfold sum. cbn [seq map fold_right]. rewrite <- seq_shift, map_map. reflexivity. Qed.
Lemma dot_sum n : forall r x, length r = n -> length x = n -> dot r x == sum n (fun j => nth j r 0 * nth j x 0).
Proof.
  intros r x. revert n x. induction r as [|u r IH]; intros n x E1 E2; cbn in E1; subst n; [destruct x; reflexivity|]. destruct x as [|y x]; [discriminate|]. cbn [dot]. rewrite (IH (length r) x eq_refl) by (cbn in E2; lia).
  rewrite sum_shift. cbn [nth]. reflexivity.
Qed.

Lemma shape_in r c M row : shape r c M = true -> In row M -> length row = c.
Proof. unfold shape. intros E I. apply andb_prop in E. destruct E as [_ E]. rewrite forallb_forall in E. apply Nat.eqb_eq. apply E. exact I. Qed.
Lemma column_of x i : entry (map (fun v => [v]) x) i 0 = nth i x 0.
Proof. unfold entry. revert i. induction x as [|y x IH]; intros [|i]; cbn; auto. Qed.
Lemma rows_in n (A b : mat) i : length A = n -> length b = n -> (i < n)%nat -> In (nth i A [], entry b i 0) (combine A (map (fun r => nth 0 r 0) b)).
Proof.
  intros L1 L2 Hi. replace (nth i A [], entry b i 0) with (nth i (combine A (map (fun r => nth 0 r 0) b)) ([], 0)); [apply nth_In; rewrite combine_length, map_length; lia|].
  rewrite combine_nth by (rewrite map_length; lia). f_equal. unfold entry. change 0 with (nth 0 (@nil Q) 0) at 2. apply (map_nth (fun r => nth 0 r 0)).
Qed.
Theorem gauss_solver_exact : exact_spsolve gauss_solver.
Proof.
  intros n A b u SA Sb E. destruct (shape_len _ _ _ SA) as [LA _]. destruct (shape_len _ _ _ Sb) as [Lb _]. unfold gauss_solver in E. rewrite LA, Sb in E.
  destruct (gauss n _) as [x|] eqn:Ex; [|discriminate]. injection E as <-.
  destruct (gauss_exact n (combine A (map (fun r => nth 0 r 0) b)) x) as [Lx Hx].
  - intros [r v] I. apply in_combine_l in I. apply (shape_in _ _ _ _ SA I).
  - rewrite combine_length, map_length. lia.
  - exact Ex.
  - split; [unfold shape; rewrite map_length, Lx, Nat.eqb_refl; apply forallb_forall; intros r I; apply in_map_iff in I; destruct I as [v [<- _]]; reflexivity|].
    intros i Hi. pose proof (Hx _ (rows_in n A b i LA Lb Hi)) as H. cbn [fst snd] in H. rewrite <- H, (dot_sum n); [|apply (shape_len _ _ _ SA); exact Hi|exact Lx].
    unfold mulv. apply sum_ext. intros j _. unfold column. rewrite column_of. reflexivity.
Qed.
Theorem gauss_solver_complete : complete_spsolve gauss_solver.
Proof.
  intros n A b SA Sb NS. destruct (shape_len _ _ _ SA) as [LA _]. destruct (shape_len _ _ _ Sb) as [Lb _]. unfold gauss_solver. rewrite LA, Sb.
  destruct (gauss n _) as [x|] eqn:Ex; [discriminate|]. exfalso. revert Ex. apply gauss_total.
  - intros [r v] I. apply in_combine_l in I. apply (shape_in _ _ _ _ SA I).
  - intros x Lx Hx y Iy. apply (In_nth _ _ 0) in Iy. destruct Iy as [i [Hi <-]]. apply (NS (fun i => nth i x 0)); [|lia]. intros j Hj.
    pose proof (Hx _ (rows_in n A b j LA Lb Hj)) as H. cbn [fst] in H. rewrite <- H, (dot_sum n); [reflexivity|apply (shape_len _ _ _ SA); exact Hj|exact Lx].
Qed.
