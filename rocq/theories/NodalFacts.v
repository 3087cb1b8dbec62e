(** * Facts about Nodal.eval, for any mesh *)
From Coq Require Import List Arith Bool Lia Permutation QArith Lqa.
From Verif Require Import Tree Forest TreeFacts Geom SpecGeom Fem ShapeFacts Basis Solver Nodal.
Import ListNotations.
Open Scope nat_scope.

Lemma mr_ok {X Y} (f : X -> res Y) (g : X -> Y) l : (forall x, In x l -> f x = Ok (g x)) -> map_res f l = Ok (map g l).
Proof.
  induction l as [|x l IH]; intro F; cbn [map_res map]; auto. rewrite (F x (or_introl eq_refl)). cbn [bind]. rewrite IH; auto. intros y Hy. apply F. right. auto.
Qed.
Lemma mr_inv {X Y} (f : X -> res Y) l r : map_res f l = Ok r -> Forall2 (fun x y => f x = Ok y) l r.
Proof.
  revert r. induction l as [|x l IH]; intros r E; cbn [map_res] in E; [injection E as <-; constructor|].
  destruct (f x) as [y|] eqn:Ey; [|discriminate E]. cbn [bind] in E. destruct (map_res f l) as [r'|] eqn:Er; [|discriminate E]. cbn [bind] in E. injection E as <-.
  constructor; auto.
Qed.
Lemma io_nth l : forall k v, NoDup l -> nth_error l k = Some v -> idx_of v l = Some k.
Proof.
  induction l as [|x l IH]; intros [|k] v N E; cbn in *; try discriminate.
  - injection E as ->. rewrite Nat.eqb_refl. reflexivity.
  - inversion N as [|? ? Nx Nl]; subst. destruct (Nat.eqb_spec x v) as [->|_]; [exfalso; apply Nx; eapply nth_error_In; eauto|].
    rewrite (IH k v); auto.
Qed.
Lemma io_spec l : forall v i, idx_of v l = Some i -> nth_error l i = Some v.
Proof.
  induction l as [|x l IH]; intros v i E; cbn in *; [discriminate|]. destruct (Nat.eqb_spec x v) as [->|_]; [injection E as <-; reflexivity|].
  destruct (idx_of v l) as [k|] eqn:Ek; [|discriminate]. injection E as <-. cbn. auto.
Qed.
Lemma io_in l v : In v l -> exists i, idx_of v l = Some i.
Proof.
  induction l as [|x l IH]; intros H; [destruct H|]. cbn. destruct (Nat.eqb_spec x v) as [->|N]; eauto.
  destruct H as [H|H]; [congruence|]. destruct (IH H) as [i ->]. cbn; eauto.
Qed.

(** a set is listed without repetitions, in some order *)
Definition lists_sets (set_list : list nat -> list nat) : Prop :=
  forall l, NoDup (set_list l) /\ forall d, In d (set_list l) <-> In d l.

(** the coefficient function of one row *)
Definition upd1 (c : nat -> Q) (dv : nat * Q) : nat -> Q := fun d => if d =? fst dv then snd dv else c d.
Definition upd (c : nat -> Q) (l : list (nat * Q)) : nat -> Q := fold_left upd1 l c.

Lemma set_nth_map (u : list nat) (c : nat -> Q) k d v : NoDup u -> nth_error u k = Some d ->
  set_nth k v (map c u) = map (upd1 c (d, v)) u.
Proof.
  revert k. induction u as [|x u IH]; intros [|k] N E; cbn in *; try discriminate; inversion N as [|? ? Nx Nu]; subst.
  - injection E as ->. unfold upd1 at 1. cbn. rewrite Nat.eqb_refl. f_equal. apply map_ext_in. intros y Hy. unfold upd1. cbn.
    destruct (Nat.eqb_spec y d) as [->|]; [contradiction|reflexivity].
  - rewrite (IH k Nu E). f_equal. unfold upd1. cbn. destruct (Nat.eqb_spec x d) as [->|]; [|reflexivity].
    exfalso. apply Nx. eapply nth_error_In; eauto.
Qed.
Lemma put_row_map (u : list nat) ds : NoDup u -> (forall d, In d ds -> In d u) -> forall vals c cols,
  map_res (col_of u) ds = Ok cols -> put_row cols vals (map c u) = map (upd c (combine ds vals)) u.
Proof.
  intros N. induction ds as [|d ds IH]; intros I vals c cols E; cbn in E.
  - injection E as <-. reflexivity.
  - destruct (col_of u d) as [k|] eqn:Ek; [|discriminate E]. cbn in E. destruct (map_res (col_of u) ds) as [ks|] eqn:Eks; [|discriminate E].
    cbn in E. injection E as <-. unfold col_of in Ek. destruct (idx_of d u) as [k'|] eqn:Ei; [|discriminate Ek]. injection Ek as ->.
    destruct vals as [|v vals]; [reflexivity|].
    unfold put_row. cbn [combine fold_left fst snd]. rewrite (set_nth_map u c k d v N (io_spec _ _ _ Ei)).
    unfold upd. cbn [combine fold_left]. apply (IH (fun d' H => I d' (or_intror H)) vals _ ks eq_refl).
Qed.
Lemma cols_total (u ds : list nat) : (forall d, In d ds -> In d u) -> exists cols, map_res (col_of u) ds = Ok cols /\ length cols = length ds.
Proof.
  intros I. exists (map (fun d => match idx_of d u with Some k => k | None => 0 end) ds). rewrite map_length. split; auto.
  apply mr_ok. intros d Hd. unfold col_of. destruct (io_in u d (I d Hd)) as [k ->]. reflexivity.
Qed.

(** one block *)
Definition rowsupd (ds : list nat) (c : nat -> nat -> Q) (iv : nat * list Q) : nat -> nat -> Q :=
  fun j => if j =? fst iv then upd (c j) (combine ds (snd iv)) else c j.
Definition mat (n : nat) (u : list nat) (c : nat -> nat -> Q) : list (list Q) := map (fun j => map (c j) u) (seq 0 n).
Lemma set_nth_seq {X} (g : nat -> X) x : forall n a i, i < n -> set_nth i x (map g (seq a n)) = map (fun j => if j =? a + i then x else g j) (seq a n).
Proof.
  induction n as [|n IH]; intros a i Hi; [lia|]. destruct i as [|i]; cbn [seq map set_nth].
  - rewrite Nat.add_0_r, Nat.eqb_refl. f_equal. apply map_ext_in. intros j Hj. apply in_seq in Hj. destruct (Nat.eqb_spec j a); [lia|reflexivity].
  - destruct (Nat.eqb_spec a (a + S i)); [lia|]. f_equal. rewrite (IH (S a) i) by lia. apply map_ext_in. intros j _.
    replace (S a + i) with (a + S i) by lia. reflexivity.
Qed.
Lemma mat_nth n u c j : j < n -> nth j (mat n u c) [] = map (c j) u.
Proof.
  intros H. unfold mat. rewrite (nth_indep _ [] (map (c 0) u)) by (rewrite map_length, seq_length; auto).
  rewrite (map_nth (fun j => map (c j) u)). rewrite seq_nth by auto. reflexivity.
Qed.
Lemma put_block_mat n u ds cols : NoDup u -> (forall d, In d ds -> In d u) -> map_res (col_of u) ds = Ok cols ->
  forall l c, (forall iv, In iv l -> fst iv < n) ->
  fold_left (fun M iv => set_nth (fst iv) (put_row cols (snd iv) (nth (fst iv) M [])) M) l (mat n u c) = mat n u (fold_left (rowsupd ds) l c).
Proof.
  intros N I E. induction l as [|[i v] l IH]; intros c B; [reflexivity|]. cbn [fold_left fst snd].
  assert (Hi : i < n) by (apply (B (i, v)); left; reflexivity).
  rewrite mat_nth by auto. rewrite (put_row_map u ds N I v (c i) cols E).
  assert (Em : set_nth i (map (upd (c i) (combine ds v)) u) (mat n u c) = mat n u (rowsupd ds c (i, v))).
  { unfold mat. rewrite set_nth_seq by auto. apply map_ext_in. intros j _. cbn. unfold rowsupd. cbn.
    destruct (Nat.eqb_spec j i) as [->|]; reflexivity. }
  rewrite Em. apply IH. intros iv H. apply B. right. auto.
Qed.
Lemma rowsupd_out ds l : forall c j, ~ In j (map fst l) -> fold_left (rowsupd ds) l c j = c j.
Proof.
  induction l as [|[i v] l IH]; intros c j H; [reflexivity|]. cbn in *. rewrite IH by tauto.
  unfold rowsupd. cbn. destruct (Nat.eqb_spec j i) as [->|]; [tauto|reflexivity].
Qed.
Lemma rowsupd_in ds l : forall c j v, NoDup (map fst l) -> In (j, v) l -> fold_left (rowsupd ds) l c j = upd (c j) (combine ds v).
Proof.
  induction l as [|[i w] l IH]; intros c j v N H; [destruct H|]. cbn in N. inversion N as [|? ? Ni Nl]; subst. cbn [fold_left].
  destruct H as [H|H].
  - injection H as -> ->. rewrite rowsupd_out by auto. unfold rowsupd. cbn. rewrite Nat.eqb_refl. reflexivity.
  - rewrite (IH _ j v Nl H). unfold rowsupd. cbn. destruct (Nat.eqb_spec j i) as [->|]; [|reflexivity].
    exfalso. apply Ni. apply in_map_iff. exists (i, v). auto.
Qed.

Lemma nda {X} (a b : list X) : NoDup (a ++ b) -> NoDup a /\ NoDup b /\ forall x, In x a -> ~ In x b.
Proof.
  induction a as [|x a IH]; cbn; intros N; [repeat split; auto; constructor|]. inversion N as [|? ? Nx Na]; subst. destruct (IH Na) as [A [B C]].
  repeat split; auto.
  - constructor; auto. intro; apply Nx; apply in_or_app; auto.
  - intros y [<-|H] Hb; [apply Nx; apply in_or_app; auto|eapply C; eauto].
Qed.
(** all blocks *)
Lemma put_all n u : NoDup u -> forall ls c,
  (forall l, In l ls -> (forall d, In d (lc_dofs l) -> In d u) /\ (forall i, In i (lc_pts l) -> i < n) /\
     length (lc_phi l) = length (lc_pts l) /\ forall r, In r (lc_phi l) -> length r = length (lc_dofs l)) ->
  NoDup (flat_map lc_pts ls) ->
  exists c', fold_res (put_bin u) ls (mat n u c) = Ok (mat n u c') /\
    (forall j, ~ In j (flat_map lc_pts ls) -> c' j = c j) /\
    forall l j v, In l ls -> In (j, v) (combine (lc_pts l) (lc_phi l)) -> c' j = upd (c j) (combine (lc_dofs l) v).
Proof.
  intros N. induction ls as [|l ls IH]; intros c A Nd.
  - exists c. split; [reflexivity|]. split; [auto|]. intros l j v [].
  - destruct (A l (or_introl eq_refl)) as [A1 [A2 [A3 A4]]].
    destruct (cols_total u (lc_dofs l) A1) as [cols [Ec Lc]].
    cbn [flat_map] in Nd.
    destruct (nda _ _ Nd) as [Nd1 [Nd2 Dj]].
    assert (Ef : map fst (combine (lc_pts l) (lc_phi l)) = lc_pts l).
    { clear -A3. revert A3. generalize (lc_phi l). induction (lc_pts l) as [|a r IH]; intros [|b q] H; cbn in *; try discriminate; auto. f_equal. apply IH. lia. }
    destruct (IH (fold_left (rowsupd (lc_dofs l)) (combine (lc_pts l) (lc_phi l)) c) (fun l' H => A l' (or_intror H)) Nd2) as [c' [E [C1 C2]]].
    exists c'. split; [|split].
    + cbn [fold_res]. unfold put_bin at 1. rewrite Ec. cbn [bind].
      replace (forallb (fun r => length r =? length cols) (lc_phi l)) with true.
      2:{ symmetry. apply forallb_forall. intros r Hr. apply Nat.eqb_eq. rewrite Lc. auto. }
      cbn [bind]. unfold put_block. rewrite (put_block_mat n u (lc_dofs l) cols N A1 Ec).
      * exact E.
      * intros [i v] H. apply in_combine_l in H. cbn. auto.
    + intros j H. cbn [flat_map] in H. rewrite C1 by (intro; apply H; apply in_or_app; auto).
      apply rowsupd_out. rewrite Ef. intro; apply H; apply in_or_app; auto.
    + intros l' j v [<-|Hl] Hj.
      * rewrite C1 by (apply Dj; eapply in_combine_l; eauto). apply rowsupd_in; auto. rewrite Ef. auto.
      * rewrite (C2 l' j v Hl Hj). f_equal. apply rowsupd_out. rewrite Ef. intro H.
        apply (Dj j H). apply in_flat_map. exists l'. split; auto. eapply in_combine_l; eauto.
Qed.

(** ** the sum over the unique dofs is the sum over the dofs of the cell *)
Lemma upd_out l : forall c d, ~ In d (map fst l) -> upd c l d = c d.
Proof.
  induction l as [|[a v] l IH]; intros c d H; [reflexivity|]. cbn in *. unfold upd in *. cbn [fold_left]. rewrite IH by tauto.
  unfold upd1. cbn. destruct (Nat.eqb_spec d a) as [->|]; [tauto|reflexivity].
Qed.
Open Scope Q_scope.
Lemma sum_split (u : list nat) d (g : nat -> Q) : NoDup u -> In d u ->
  sumQ (map g u) == g d + sumQ (map (fun x => if (x =? d)%nat then 0 else g x) u).
Proof.
  induction u as [|x u IH]; intros N H; [destruct H|]. inversion N as [|? ? Nx Nu]; subst. cbn [map sumQ].
  destruct H as [->|H].
  - rewrite Nat.eqb_refl. rewrite (sumQ_map_ext (fun x => if (x =? d)%nat then 0 else g x) g).
    + ring.
    + intros y Hy. destruct (Nat.eqb_spec y d) as [->|]; [contradiction|reflexivity].
  - destruct (Nat.eqb_spec x d) as [->|]; [contradiction|]. rewrite (IH Nu H). ring.
Qed.
Lemma sum_zero {X} (u : list X) (g : X -> Q) : (forall x, In x u -> g x == 0) -> sumQ (map g u) == 0.
Proof. induction u as [|x u IH]; intros H; cbn [map sumQ]; [reflexivity|]. setoid_rewrite IH; [|intros; apply H; right; auto]. setoid_rewrite (H x (or_introl eq_refl)). reflexivity. Qed.
Lemma upd_sum (u : list nat) (w : nat -> Q) : NoDup u -> forall l c, NoDup (map fst l) -> (forall d, In d (map fst l) -> In d u /\ c d == 0) ->
  sumQ (map (fun d => upd c l d * w d) u) == sumQ (map (fun d => c d * w d) u) + sumQ (map (fun dv => snd dv * w (fst dv)) l).
Proof.
  intros N. induction l as [|[a v] l IH]; intros c Nl H.
  - cbn. ring.
  - cbn [map fst] in Nl. inversion Nl as [|? ? Na Nl']; subst. unfold upd. cbn [fold_left]. fold (upd (upd1 c (a, v)) l).
    rewrite IH; auto.
    + cbn [map sumQ fst snd]. destruct (H a) as [Ha Hc]; [left; reflexivity|].
      rewrite (sum_split u a (fun d => upd1 c (a, v) d * w d) N Ha).
      rewrite (sum_split u a (fun d => c d * w d) N Ha). rewrite Hc. unfold upd1 at 1. cbn [fst snd]. rewrite Nat.eqb_refl.
      rewrite (sumQ_map_ext (fun x => if (x =? a)%nat then 0 else upd1 c (a, v) x * w x) (fun x => if (x =? a)%nat then 0 else c x * w x)).
      * ring.
      * intros x _. unfold upd1. cbn. destruct (Nat.eqb_spec x a); reflexivity.
    + intros d Hd. destruct (H d) as [H1 H2]; [right; auto|]. split; auto. unfold upd1. cbn.
      destruct (Nat.eqb_spec d a) as [->|]; [contradiction|auto].
Qed.
Close Scope Q_scope.

(** ** eval(phi, dofs) *)
Section EvalPhi.
Variables (f : nodal (list Q)) (ns : nat).
Let B := nd_basis f.
Let data := nd_data f.
(** the nodal value of the dof [d] of the sample [t] *)
Definition value_of (t d : nat) : Q := match basis_d2i (nd_basis f) d with Ok (Some i) => nth t (nth i (nd_data f) []) 0%Q | _ => 0%Q end.
Definition has_row (d : nat) : Prop := exists i, basis_d2i (nd_basis f) d = Ok (Some i) /\ i < length (nd_data f).

Lemma eval_phi_rows ds phi : n_samples data = ns -> (forall d, In d ds -> has_row d) -> (forall r, In r phi -> length r = length ds) ->
  eval_phi f phi ds = Ok (map (fun row => map (fun t => sumQ (map (fun cd => fst cd * value_of t (snd cd))%Q (combine row ds))) (seq 0 ns)) phi).
Proof.
  intros En Hd Hl. unfold eval_phi.
  set (ix := fun d => match basis_d2i B d with Ok o => o | Err _ => None end).
  set (rw := fun d => match ix d with Some i => nth i data [] | None => [] end).
  assert (X : forall d, In d ds -> exists i, basis_d2i B d = Ok (Some i) /\ i < length data) by exact Hd.
  rewrite (mr_ok _ ix).
  2:{ intros d H. destruct (X d H) as [i [E _]]. unfold ix. unfold B in *. rewrite E. reflexivity. }
  cbn [bind]. rewrite (mr_ok _ (fun o => match o with Some i => nth i data [] | None => [] end)).
  2:{ intros o H. apply in_map_iff in H. destruct H as [d [<- H]]. destruct (X d H) as [i [E L]]. unfold ix. rewrite E. cbn.
      unfold at_. fold data. rewrite (nth_error_nth' data [] L). reflexivity. }
  cbn [bind]. rewrite map_map. fold rw. apply mr_ok. intros r Hr. rewrite map_length, (Hl r Hr), Nat.eqb_refl. f_equal.
  unfold contract. fold data. rewrite En. apply map_ext_in. intros t _.
  assert (Hin : forall d, In d ds -> nth t (rw d) 0%Q = value_of t d).
  { intros d H. destruct (X d H) as [i [E _]]. unfold rw, ix, value_of. fold B. rewrite E. reflexivity. }
  clear -Hin. revert r. induction ds as [|d ds IH]; intros [|a r]; cbn; auto.
  rewrite (Hin d (or_introl eq_refl)). f_equal. apply IH. intros d' H; apply Hin. right. auto.
Qed.
End EvalPhi.

(** ** eval(x) *)
Section EvalX.
Context {P : Type}.
Variable bins_of : list P -> res binned.
Variable cell_dofs : path -> option (list nat).
Variable shapes : path -> P -> res (list Q).
Variable set_list : list nat -> list nat.
Hypothesis SL : lists_sets set_list.
Variables (xs : list P) (bs : binned).
Hypothesis HB : bins_of xs = Ok bs.
Hypothesis HP : Permutation (flat_map snd bs) (seq 0 (length xs)).
Hypothesis HC : forall q idx, In (q, idx) bs -> exists ds, cell_dofs q = Some ds /\ NoDup ds /\
  forall j, In j idx -> exists x row, nth_error xs j = Some x /\ shapes q x = Ok row /\ length row = length ds.

Let dofs_of (q : path) : list nat := match cell_dofs q with Some ds => ds | None => [] end.
Let row_at (q : path) (j : nat) : list Q := match nth_error xs j with Some x => match shapes q x with Ok r => r | Err _ => [] end | None => [] end.
Let loc (b : path * list nat) : bin_rows := mkLoc (snd b) (dofs_of (fst b)) (map (row_at (fst b)) (snd b)).
Let u := set_list (flat_map lc_dofs (map loc bs)).

Lemma global_phi_spec : exists c, global_phi bins_of cell_dofs shapes set_list xs = Ok (mat (length xs) u c, u) /\
  forall q idx j, In (q, idx) bs -> In j idx -> exists x ds row, nth_error xs j = Some x /\ cell_dofs q = Some ds /\ shapes q x = Ok row /\
    NoDup ds /\ length row = length ds /\ (forall d, In d ds -> In d u) /\ c j = upd (fun _ => 0%Q) (combine ds row).
Proof.
  unfold global_phi. rewrite HB. cbn [bind].
  rewrite (mr_ok _ loc).
  2:{ intros [q idx] H. destruct (HC q idx H) as [ds [E [_ F]]]. unfold locate. cbn [fst snd]. rewrite E.
      rewrite (mr_ok _ (row_at q)).
      - cbn [bind]. unfold loc, dofs_of. cbn [fst snd]. rewrite E. reflexivity.
      - intros j Hj. destruct (F j Hj) as [x [row [E1 [E2 _]]]]. unfold at_. rewrite E1. cbn [bind]. unfold row_at. rewrite E1, E2. reflexivity. }
  cbn [bind]. fold u.
  destruct (SL (flat_map lc_dofs (map loc bs))) as [Nu Iu]. fold u in Nu, Iu.
  assert (E0 : repeat (repeat 0%Q (length u)) (length xs) = mat (length xs) u (fun _ _ => 0%Q)).
  { unfold mat. assert (R : forall X Y (y : Y) (l : list X), map (fun _ => y) l = repeat y (length l)) by (induction l; cbn; congruence).
    rewrite R, seq_length, R. reflexivity. }
  rewrite E0.
  assert (Epts : flat_map lc_pts (map loc bs) = flat_map snd bs).
  { clear. induction bs as [|b l IH]; cbn; [reflexivity|]. rewrite IH. reflexivity. }
  destruct (put_all (length xs) u Nu (map loc bs) (fun _ _ => 0%Q)) as [c [E [_ C]]].
  { intros l Hl. pose proof Hl as Hl0. apply in_map_iff in Hl. destruct Hl as [[q idx] [<- H]]. cbn [loc lc_dofs lc_pts lc_phi fst snd].
    destruct (HC q idx H) as [ds [Ed [_ F]]]. split; [|split; [|split]].
    - intros d Hd. apply Iu. apply in_flat_map. exists (loc (q, idx)). split; auto.
    - intros i Hi. assert (Hs : In i (seq 0 (length xs))).
      { eapply Permutation_in; [exact HP|]. apply in_flat_map. exists (q, idx). auto. }
      apply in_seq in Hs. lia.
    - apply map_length.
    - intros r Hr. apply in_map_iff in Hr. destruct Hr as [j [<- Hj]]. destruct (F j Hj) as [x [row [E1 [E2 E3]]]].
      unfold row_at, dofs_of. rewrite E1, E2, Ed. exact E3. }
  { rewrite Epts. eapply Permutation_NoDup; [apply Permutation_sym; exact HP|apply seq_NoDup]. }
  exists c. rewrite E. split; [reflexivity|].
  intros q idx j H Hj. destruct (HC q idx H) as [ds [Ed [Nd F]]]. destruct (F j Hj) as [x [row [E1 [E2 E3]]]].
  exists x, ds, row. repeat (split; auto).
  - intros d Hd. apply Iu. apply in_flat_map. exists (loc (q, idx)). split; [apply in_map; auto|]. cbn. unfold dofs_of. rewrite Ed. auto.
  - rewrite (C (loc (q, idx)) j row).
    + cbn. unfold dofs_of. rewrite Ed. reflexivity.
    + apply in_map. auto.
    + cbn. clear -Hj E1 E2. induction idx as [|a r IH]; [destruct Hj|]. cbn. destruct Hj as [->|Hj].
      * left. unfold row_at. rewrite E1, E2. reflexivity.
      * right. auto.
Qed.

Lemma u_dofs d : In d u -> exists q idx ds, In (q, idx) bs /\ cell_dofs q = Some ds /\ In d ds.
Proof.
  destruct (SL (flat_map lc_dofs (map loc bs))) as [_ Iu]. intros H. apply Iu in H. apply in_flat_map in H. destruct H as [l [Hl H]].
  apply in_map_iff in Hl. destruct Hl as [[q idx] [<- Hb]]. exists q, idx. cbn in H. unfold dofs_of in H.
  destruct (HC q idx Hb) as [ds [E _]]. rewrite E in H. exists ds. auto.
Qed.
Lemma bin_of j : j < length xs -> exists q idx, In (q, idx) bs /\ In j idx.
Proof.
  intros H. assert (Hj : In j (flat_map snd bs)). { eapply Permutation_in; [apply Permutation_sym; exact HP|]. apply in_seq. lia. }
  apply in_flat_map in Hj. destruct Hj as [[q idx] [H1 H2]]. eauto.
Qed.

Lemma map_fst_combine {X Y} (a : list X) : forall (b : list Y), length a = length b -> map fst (combine a b) = a.
Proof. induction a as [|x a IH]; intros [|y b] E; cbn in *; try discriminate; auto. f_equal. apply IH. lia. Qed.

Lemma eval_x_spec (f : nodal (list Q)) ns : n_samples (nd_data f) = ns ->
  (forall q idx ds d, In (q, idx) bs -> cell_dofs q = Some ds -> In d ds -> has_row f d) ->
  exists R, eval_x bins_of cell_dofs shapes set_list f xs = Ok R /\ length R = length xs /\
    forall j x r, nth_error xs j = Some x -> nth_error R j = Some r -> length r = ns /\
      exists q idx ds row, In (q, idx) bs /\ In j idx /\ cell_dofs q = Some ds /\ shapes q x = Ok row /\ length row = length ds /\
        forall t, t < ns -> (nth t r 0 == sumQ (map (fun cd => fst cd * value_of f t (snd cd)) (combine row ds)))%Q.
Proof.
  intros En Hr. destruct global_phi_spec as [c [E C]]. unfold eval_x. rewrite E. cbn [bind fst snd].
  destruct (SL (flat_map lc_dofs (map loc bs))) as [Nu Iu]. fold u in Nu, Iu.
  rewrite (eval_phi_rows f ns u (mat (length xs) u c) En).
  2:{ intros d Hd. destruct (u_dofs d Hd) as [q [idx [ds [H1 [H2 H3]]]]]. eauto. }
  2:{ intros r H. unfold mat in H. apply in_map_iff in H. destruct H as [j [<- _]]. apply map_length. }
  eexists. split; [reflexivity|]. split; [rewrite map_length; unfold mat; rewrite map_length, seq_length; reflexivity|].
  intros j x r Ex Er.
  assert (Hj : j < length xs) by (apply nth_error_Some; congruence).
  rewrite nth_error_map in Er.
  assert (Em : nth_error (mat (length xs) u c) j = Some (map (c j) u)).
  { rewrite <- (mat_nth (length xs) u c j Hj). apply nth_error_nth'. unfold mat. rewrite map_length, seq_length. auto. }
  rewrite Em in Er. cbn in Er. injection Er as <-. split; [rewrite map_length, seq_length; reflexivity|].
  destruct (bin_of j Hj) as [q [idx [Hb Hi]]].
  destruct (C q idx j Hb Hi) as [x' [ds [row [E1 [E2 [E3 [Nd [L [Su Ec]]]]]]]]].
  rewrite Ex in E1. injection E1 as <-. exists q, idx, ds, row. repeat (split; auto).
  intros t Ht. rewrite (nth_indep _ 0%Q ((fun t => sumQ (map (fun cd => (fst cd * value_of f t (snd cd))%Q) (combine (map (c j) u) u))) 0)) by (rewrite map_length, seq_length; auto).
  rewrite (map_nth (fun t => sumQ (map (fun cd => (fst cd * value_of f t (snd cd))%Q) (combine (map (c j) u) u)))). rewrite seq_nth by auto. cbn [Nat.add].
  assert (Ez : map (fun cd : Q * nat => (fst cd * value_of f t (snd cd))%Q) (combine (map (c j) u) u) = map (fun d => (c j d * value_of f t d)%Q) u).
  { clear. generalize u. intros l. induction l as [|d l IH]; cbn; [reflexivity|]. f_equal. exact IH. }
  rewrite Ez, Ec.
  rewrite (upd_sum u (value_of f t) Nu (combine ds row) (fun _ => 0%Q)).
  - rewrite (sum_zero u) by (intros; ring).
    assert (Es : forall (a : list nat) (b : list Q), (sumQ (map (fun dv => snd dv * value_of f t (fst dv)) (combine a b)) == sumQ (map (fun cd => fst cd * value_of f t (snd cd)) (combine b a)))%Q).
    { induction a as [|x0 a IH]; intros [|y b]; cbn; try reflexivity. rewrite IH. reflexivity. }
    rewrite Es. ring.
  - rewrite map_fst_combine by auto. auto.
  - intros d Hd. rewrite map_fst_combine in Hd by auto. split; [auto|reflexivity].
Qed.
End EvalX.
