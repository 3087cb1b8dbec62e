(** * What the steps of LinearSystem compute on the whole mesh *)
From Coq Require Import List Arith Bool QArith Lia Setoid Morphisms Qring.
From Verif Require Import Tree TreeFacts Geom Dof Solver SpecSolver SolverFacts.
Import ListNotations.
Open Scope Q_scope.

Lemma make_d2e_seq : forall n, (0 < n)%nat -> make_d2e (seq 0 n) = Ok (seq 0 n).
Proof.
  intros n Hn.
  assert (G : forall r i, (i + r = n)%nat ->
     fold_res assign_eqn (seq i r) (seq 0 i ++ repeat 0%nat r, i) = Ok (seq 0 n, n)).
  { induction r as [|r IH]; intros i E.
    - cbn. rewrite app_nil_r. rewrite Nat.add_0_r in E. subst. reflexivity.
    - cbn [seq fold_res]. unfold assign_eqn at 1. cbn [fst snd].
      rewrite app_length, seq_length, repeat_length. destruct (Nat.ltb_spec i (i + S r)); [|lia]. cbn [bind].
      replace (set_nth i i (seq 0 i ++ repeat 0%nat (S r))) with (seq 0 (S i) ++ repeat 0%nat r).
      + apply IH. lia.
      + rewrite seq_S, <- app_assoc. cbn [plus app].
        assert (Gs : forall l (x : nat) m, set_nth (length l) x (l ++ m) = l ++ match m with [] => [] | _ :: q => x :: q end).
        { induction l as [|a l IHl]; intros x m; [destruct m; reflexivity|]. cbn. rewrite IHl. reflexivity. }
        specialize (Gs (seq 0 i) i (repeat 0%nat (S r))). rewrite seq_length in Gs. rewrite Gs. reflexivity. }
  unfold make_d2e. destruct (seq 0 n) as [|a l] eqn:E; [destruct n; [lia|discriminate]|]. rewrite <- E.
  replace (S (last (seq 0 n) 0%nat)) with n.
  - specialize (G n 0%nat eq_refl). cbn [seq app] in G. rewrite G, E. reflexivity.
  - destruct n as [|n']; [lia|]. rewrite seq_S, last_last. reflexivity.
Qed.

(** A system on all dofs of the mesh *)
Definition whole (n : nat) (s : lsys) : Prop := l_dofs s = seq 0 n /\ l_d2e s = seq 0 n /\ (0 < n)%nat.
Lemma whole_n : forall n s, whole n s -> n_eqns s = n.
Proof. intros n s [H _]. unfold n_eqns. rewrite H. apply seq_length. Qed.
Lemma whole_eqn : forall n s d, whole n s -> (d < n)%nat -> dof2eqn s d = Ok d.
Proof.
  intros n s d [_ [H _]] Hd. unfold dof2eqn. rewrite H.
  rewrite (nth_error_nth' _ 0%nat) by (rewrite seq_length; exact Hd). rewrite seq_nth by exact Hd. reflexivity.
Qed.
Lemma map_res_ok : forall X Y (f : X -> res Y) (g : X -> Y) l, (forall x, In x l -> f x = Ok (g x)) ->
  map_res f l = Ok (map g l).
Proof.
  intros X Y f g. induction l as [|x l IH]; intro A; [reflexivity|]. cbn.
  rewrite (A x) by (left; reflexivity). cbn. rewrite IH; [reflexivity|]. intros; apply A; right; assumption.
Qed.
Lemma eqns_ok : forall n s cs, whole n s -> Forall (in_range n) cs ->
  map_res (fun c => dof2eqn s (c_dof c)) cs = Ok (map c_dof cs).
Proof.
  intros n s cs W F. apply map_res_ok. intros c Hc. apply (whole_eqn n); [exact W|].
  rewrite Forall_forall in F. apply F. exact Hc.
Qed.
Definition trip (cs : list constraint) : list (nat * nat * Q) :=
  concat (map (fun c => map (fun p => (c_dof c, fst p, snd p)) (c_supp c)) cs).
Lemma triplets_ok : forall n s, whole n s -> Forall (in_range n) (l_cons s) -> triplets s = Ok (trip (l_cons s)).
Proof.
  intros n s W F. unfold triplets.
  erewrite (map_res_ok _ _ _ (fun c => map (fun p => (c_dof c, fst p, snd p)) (c_supp c))).
  - reflexivity.
  - intros c Hc. rewrite Forall_forall in F. destruct (F c Hc) as [A B].
    apply map_res_ok. intros p Hp. rewrite (whole_eqn n s _ W A). cbn [bind].
    rewrite (whole_eqn n s _ W (B p Hp)). reflexivity.
Qed.

(** ** The rows of C *)
Lemma coo_cons : forall p t i j, coo_entry (p :: t) i j ==
  (if (fst (fst p) =? i)%nat && (snd (fst p) =? j)%nat then snd p else 0) + coo_entry t i j.
Proof.
  intros. unfold coo_entry. cbn [filter]. destruct ((fst (fst p) =? i)%nat && (snd (fst p) =? j)%nat); cbn [map fold_right]; ring.
Qed.
Lemma coo_app : forall t t' i j, coo_entry (t ++ t') i j == coo_entry t i j + coo_entry t' i j.
Proof.
  induction t as [|p t IH]; intros; [cbn [app]; unfold coo_entry at 2; cbn; ring|].
  cbn [app]. rewrite !coo_cons, IH. ring.
Qed.
Definition rowsum (cs : list constraint) (i : nat) (x : vec) : Q :=
  fold_right Qplus 0 (map (fun c => if (c_dof c =? i)%nat then combination x (c_supp c) else 0) cs).
Lemma coo_row : forall n cs i x, Forall (in_range n) cs ->
  sum n (fun j => coo_entry (trip cs) i j * x j) == rowsum cs i x.
Proof.
  intros n cs i x. induction cs as [|c cs IH]; intro F.
  - cbn. apply sum_zero. intros. unfold coo_entry. cbn. ring.
  - apply Forall_cons_iff in F. destruct F as [[Fd Fs] F].
    unfold trip. cbn [map concat]. fold (trip cs). unfold rowsum. cbn [map fold_right]. fold (rowsum cs i x).
    rewrite <- (IH F).
    transitivity (sum n (fun j => coo_entry (map (fun p => (c_dof c, fst p, snd p)) (c_supp c)) i j * x j + coo_entry (trip cs) i j * x j)).
    { apply sum_ext. intros j Hj. rewrite coo_app. ring. }
    rewrite sum_plus. apply Qplus_comp; [|reflexivity]. clear - Fs.
    induction (c_supp c) as [|p l IH].
    + cbn [map]. rewrite sum_zero by (intros; unfold coo_entry; cbn; ring). destruct (c_dof c =? i)%nat; reflexivity.
    + cbn [map].
      transitivity (sum n (fun j => (if (c_dof c =? i)%nat then snd p else 0) * (ek (fst p) j * x j)
          + coo_entry (map (fun p0 => (c_dof c, fst p0, snd p0)) l) i j * x j)).
      { apply sum_ext. intros j Hj. rewrite coo_cons. cbn [fst snd]. unfold ek.
        rewrite (Nat.eqb_sym (fst p) j). destruct (c_dof c =? i)%nat, (j =? fst p)%nat; cbn [andb]; ring. }
      rewrite sum_plus, sum_scal. rewrite IH by (intros; apply Fs; right; assumption).
      fold (dot n (ek (fst p)) x). rewrite dot_ek by (apply Fs; left; reflexivity).
      unfold combination. cbn [map fold_right]. destruct (c_dof c =? i)%nat; ring.
Qed.
Lemma rowsum_none : forall cs i x, (forall c, In c cs -> c_dof c = i -> c_supp c = []) -> rowsum cs i x == 0.
Proof.
  induction cs as [|c cs IH]; intros i x A; [reflexivity|].
  unfold rowsum. cbn [map fold_right]. fold (rowsum cs i x). rewrite IH by (intros; apply A; [right|]; assumption).
  destruct (Nat.eqb_spec (c_dof c) i); [|ring]. rewrite (A c); [cbn; ring|left; reflexivity|assumption].
Qed.
Lemma rowsum_app : forall a b i x, rowsum (a ++ b) i x == rowsum a i x + rowsum b i x.
Proof.
  induction a as [|c a IH]; intros; [cbn [app]; change (rowsum [] i x) with 0; ring|].
  cbn [app]. unfold rowsum. cbn [map fold_right]. fold (rowsum (a ++ b) i x). fold (rowsum a i x). fold (rowsum b i x). rewrite IH. ring.
Qed.
Lemma rowsum_one : forall cs c x, NoDup (map c_dof cs) -> In c cs -> rowsum cs (c_dof c) x == combination x (c_supp c).
Proof.
  induction cs as [|a cs IH]; intros c x N I; [destruct I|].
  cbn in N. apply NoDup_cons_iff in N. destruct N as [Na N].
  unfold rowsum. cbn [map fold_right]. fold (rowsum cs (c_dof c) x). destruct I as [<-|I].
  - rewrite Nat.eqb_refl, rowsum_none; [ring|]. intros c' I E. exfalso. apply Na. rewrite <- E. apply in_map. exact I.
  - rewrite IH by assumption. destruct (Nat.eqb_spec (c_dof a) (c_dof c)) as [E|]; [|ring].
    exfalso. apply Na. rewrite E. apply in_map. exact I.
Qed.

Definition Cmat (n : nat) (cs : list constraint) : mat :=
  tab n n (fun i j => coo_entry (trip cs) i j +
             (if (i =? j)%nat then (if existsb (Nat.eqb i) (map c_dof cs) then 0 else 1) else 0)).
Lemma Cmat_row : forall n cs i x, (i < n)%nat -> Forall (in_range n) cs ->
  sum n (fun j => entry (Cmat n cs) i j * x j) == rowsum cs i x + (if mem (map c_dof cs) i then 0 else x i).
Proof.
  intros n cs i x Hi F. rewrite <- (coo_row n cs i x F).
  transitivity (sum n (fun j => coo_entry (trip cs) i j * x j + ek i j * (if mem (map c_dof cs) i then 0 else x i))).
  - apply sum_ext. intros j Hj. unfold Cmat. rewrite entry_tab by assumption. unfold ek. fold (mem (map c_dof cs) i).
    rewrite (Nat.eqb_sym j i). destruct (Nat.eqb_spec i j); [subst; destruct (mem (map c_dof cs) j)|]; ring.
  - rewrite sum_plus. apply Qplus_comp; [reflexivity|].
    fold (dot n (ek i) (fun j => if mem (map c_dof cs) i then 0 else x i)). rewrite dot_ek by assumption. reflexivity.
Qed.
Lemma Cmat_entry : forall n cs i j, (i < n)%nat -> (j < n)%nat -> Forall (in_range n) cs ->
  entry (Cmat n cs) i j == rowsum cs i (ek j) + (if mem (map c_dof cs) i then 0 else ek j i).
Proof.
  intros n cs i j Hi Hj F. rewrite <- (Cmat_row n cs i (ek j) Hi F).
  fold (mulv n (Cmat n cs) (ek j) i). rewrite mulv_ek by assumption. reflexivity.
Qed.

Lemma nth_error_nth_def : forall X (l : list X) i d, nth i l d = match nth_error l i with Some x => x | None => d end.
Proof. induction l; destruct i; intros; cbn; auto. Qed.
(** ** The affine terms *)
Lemma aff_ok : forall n cs d0, length d0 = n -> Forall (in_range n) cs ->
  exists d, fold_res assign_aff cs d0 = Ok d /\ length d = n /\
    (forall i, ~ In i (map c_dof cs) -> nth i d 0 = nth i d0 0) /\
    (forall i, In i (map c_dof cs) -> exists c, In c cs /\ c_dof c = i /\ nth i d 0 = c_aff c).
Proof.
  intros n. induction cs as [|c cs IH]; intros d0 L F.
  - exists d0. split; [reflexivity|]. split; [exact L|]. split; [reflexivity|]. intros i [].
  - apply Forall_cons_iff in F. destruct F as [[Fd Fs] F]. cbn [fold_res]. unfold assign_aff at 1.
    destruct (Nat.ltb_spec (c_dof c) (length d0)); [|lia]. cbn [bind].
    destruct (IH (set_nth (c_dof c) (c_aff c) d0)) as [d [E [Ld [A B]]]]; [rewrite set_nth_length; exact L|exact F|].
    exists d. split; [exact E|]. split; [exact Ld|]. split.
    + intros i N. cbn in N. rewrite A by tauto. rewrite !nth_error_nth_def. rewrite nth_set_nth_neq by tauto. reflexivity.
    + intros i I. destruct (in_dec Nat.eq_dec i (map c_dof cs)) as [I'|N'].
      * destruct (B i I') as [c' [P Q']]. exists c'. split; [right; exact P|exact Q'].
      * destruct I as [<-|I]; [|contradiction]. exists c. split; [left; reflexivity|]. split; [reflexivity|].
        rewrite A by exact N'. rewrite nth_error_nth_def, nth_set_nth_eq by lia. reflexivity.
Qed.
