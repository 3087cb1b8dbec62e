(** * Repeated calls of solve_system with homogeneous Dirichlet conditions *)
From Coq Require Import List Arith Bool QArith Lia Lqa Setoid Morphisms Qring.
From Verif Require Import Tree TreeFacts Geom Dof Solver SpecSolver SolverFacts SolverRun SolverElim SolverMain SolverSpd.
Import ListNotations.
Open Scope Q_scope.

Section Rep.
Variables (n : nat) (A : mat) (ds : list constraint).
Hypothesis Hp : proper n [] ds.
Hypothesis Hz : Forall (fun c => c_aff c == 0) ds.
Notation DS := (map c_dof ds).
Notation C := (Cmat n ds).

Lemma r_lt : forall k, In k DS -> (k < n)%nat.
Proof. exact (p_lt n [] ds Hp). Qed.
Lemma r_row : forall k j, In k DS -> (j < n)%nat -> entry C k j == 0.
Proof. exact (p_Hd n C [] ds Hp eq_refl). Qed.
(** free rows and columns agree with A; [full]: free rows have no constrained entries *)
Definition agrees (M : mat) : Prop := forall i j, (i < n)%nat -> (j < n)%nat -> ~ In i DS -> ~ In j DS -> entry M i j == entry A i j.
Definition full (M : mat) : Prop := agrees M /\ forall i k, (i < n)%nat -> ~ In i DS -> In k DS -> entry M i k == 0.

Lemma csteps_agrees : forall ks M, incl ks DS -> agrees M ->
  agrees (csteps n C M ks) /\
  (forall i k, (i < n)%nat -> ~ In i DS -> In k DS -> (In k ks \/ entry M i k == 0) -> entry (csteps n C M ks) i k == 0).
Proof.
  induction ks as [|k ks IH]; intros M Inc Ag.
  - split; [exact Ag|]. intros i k Hi N I [[]|E]. exact E.
  - assert (Ik : In k DS) by (apply Inc; left; reflexivity). pose proof (r_lt k Ik) as Lk.
    assert (E1 : forall i j, (i < n)%nat -> (j < n)%nat -> i <> k -> entry (cstep n C M k) i j == (if (j =? k)%nat then 0 else entry M i j)).
    { intros i j Hi Hj Ne. rewrite cstep_entry by assumption. rewrite !(r_row k) by assumption.
      destruct (Nat.eqb_spec i k); [contradiction|]. cbn [andb]. destruct (j =? k)%nat; ring. }
    assert (Ag' : agrees (cstep n C M k)).
    { intros i j Hi Hj Ni Nj. rewrite E1 by (try assumption; intro; subst; contradiction).
      destruct (Nat.eqb_spec j k); [subst; contradiction|]. apply Ag; assumption. }
    destruct (IH (cstep n C M k)) as [P Q]; [intros z Iz; apply Inc; right; exact Iz|exact Ag'|].
    split; [exact P|]. intros i l Hi N I O. cbn [csteps fold_left]. apply Q; try assumption.
    pose proof (r_lt l I) as Ll. destruct O as [[<-|O]|O].
    + right. rewrite E1 by (try assumption; intro; subst; contradiction). rewrite Nat.eqb_refl. reflexivity.
    + left. exact O.
    + right. rewrite E1 by (try assumption; intro; subst; contradiction). destruct (l =? k)%nat; [reflexivity|exact O].
Qed.
Lemma scaled_full : forall M, agrees M -> full (scaled n (csteps n C M DS) DS).
Proof.
  intros M Ag. destruct (csteps_agrees DS M (incl_refl DS) Ag) as [P Q]. split.
  - intros i j Hi Hj Ni Nj. unfold scaled. rewrite entry_tab by assumption. apply mem_notIn in Nj as Mj. rewrite Mj.
    rewrite (P i j) by assumption. ring.
  - intros i k Hi Ni Ik. unfold scaled. rewrite entry_tab by (try assumption; apply r_lt; assumption).
    rewrite (Q i k) by (try assumption; left; assumption). ring.
Qed.
Lemma recs_length : forall ks M, length (recs n C M ks) = length ks.
Proof. induction ks; intros; cbn; [reflexivity|]. rewrite IHks. reflexivity. Qed.

Lemma rhs_free : forall s m r bp idx, whole n s -> (forall i, nth i (l_d s) 0 == 0) ->
  incl r ds -> (idx + length r <= length (l_rec s))%nat -> shape n m bp = true ->
  exists b', fold_res (constrain_rhs_step s C m DS) r (bp, idx) = Ok (b', (idx + length r)%nat) /\ shape n m b' = true /\
    forall i j, (i < n)%nat -> (j < m)%nat -> ~ In i DS -> entry b' i j == entry bp i j.
Proof.
  intros s m r. induction r as [|c r IH]; intros bp idx W D Inc Le Sh.
  - exists bp. cbn. rewrite Nat.add_0_r. split; [reflexivity|]. split; [exact Sh|]. intros; reflexivity.
  - assert (Ic : In (c_dof c) DS) by (apply in_map, Inc; left; reflexivity). pose proof (r_lt _ Ic) as Lc.
    cbn [fold_res]. unfold constrain_rhs_step at 1. rewrite (whole_eqn n s _ W Lc). cbn [bind fst snd].
    cbn [length] in Le. destruct (nth_error (l_rec s) idx) as [ak|] eqn:Ek; [|apply nth_error_None in Ek; lia].
    rewrite (whole_n n s W).
    assert (Fb : forallb (fun c0 => (c0 <? n)%nat) DS = true) by (apply forallb_forall; intros k Hk; apply Nat.ltb_lt, r_lt, Hk).
    rewrite Fb. cbn [bind].
    match goal with |- context [fold_res _ r (?bb, _)] => set (b1 := bb) end.
    destruct (IH b1 (S idx)) as [b' [E [S' P]]]; [exact W|exact D|intros z Iz; apply Inc; right; exact Iz|lia|apply shape_tab|].
    exists b'. rewrite E. split; [f_equal; f_equal; cbn [length]; lia|]. split; [exact S'|].
    intros i j Hi Hj N. rewrite (P i j Hi Hj N). unfold b1. rewrite entry_tab by assumption.
    apply mem_notIn in N. unfold mem in N. rewrite N. rewrite !entry_tab by assumption.
    rewrite (r_row (c_dof c) i Ic Hi), (D (c_dof c)). ring.
Qed.

(** the state between two calls *)
Definition ready (s : lsys) : Prop :=
  whole n s /\ l_cons s = ds /\
  (exists M, l_A s = Some M /\ agrees M) /\
  (match l_C s with None => True | Some C' => C' = C /\ (forall i, nth i (l_d s) 0 == 0) end) /\
  (match l_inv s with None => True | Some M => full M end).

Lemma free_solution : forall N m b b' u d j, full N -> (forall i, nth i d 0 == 0) -> (j < m)%nat ->
  (forall i, (i < n)%nat -> mulv n N (column u j) i == entry b' i j) ->
  (forall i, (i < n)%nat -> ~ In i DS -> entry b' i j == entry b i j) ->
  solves n A (column b j) ds (column (resolve n m C d u) j).
Proof.
  intros N m b b' u d j [Ag Fu] D Hj Hu Hb.
  assert (R : forall i, (i < n)%nat -> column (resolve n m C d u) j i == if mem DS i then 0 else entry u i j).
  { intros i Hi. unfold column, resolve. rewrite entry_tab by assumption. rewrite (D i), Qplus_0_r.
    destruct (mem DS i) eqn:E.
    - apply mem_In in E. apply sum_zero. intros l Hl. rewrite r_row by assumption. ring.
    - apply mem_notIn in E.
      rewrite (C_free n C [] ds Hp eq_refl i (fun l => entry (tab n m _) l j) Hi E). rewrite entry_tab by assumption.
      destruct (forallb (fun j0 => Qeq_bool (entry C i j0) 0) (seq 0 n)) eqn:Z0; [|reflexivity].
      exfalso. rewrite forallb_forall in Z0. pose proof (C_free n C [] ds Hp eq_refl i (ek i) Hi E) as Cf. rewrite sum_zero in Cf.
      + unfold ek in Cf. rewrite Nat.eqb_refl in Cf. discriminate.
      + intros l Hl. assert (E0 : entry C i l == 0) by (apply Qeq_bool_iff, Z0, in_seq; lia). rewrite E0. ring. }
  split.
  - intros c Ic. unfold fulfils. assert (Id : In (c_dof c) DS) by (apply in_map; exact Ic).
    rewrite R by (apply r_lt; exact Id). apply mem_In in Id. rewrite Id.
    destruct Hp as [_ [_ [_ [_ [P _]]]]]. rewrite Forall_forall in P. rewrite (P c Ic).
    rewrite Forall_forall in Hz. rewrite (Hz c Ic). cbn. ring.
  - intros v Hv. unfold homogeneous in Hv. apply sum_ext. intros i Hi. destruct (in_dec Nat.eq_dec i DS) as [I|I].
    + assert (V0 : v i == 0); [|rewrite V0; ring]. apply in_map_iff in I. destruct I as [c [<- Ic]].
      rewrite (Hv c Ic). destruct Hp as [_ [_ [_ [_ [P _]]]]]. rewrite Forall_forall in P. rewrite (P c Ic). reflexivity.
    + apply Qmult_comp; [reflexivity|]. unfold column at 2. rewrite <- (Hb i Hi I), <- (Hu i Hi). apply sum_ext. intros l Hl.
      rewrite (R l Hl). unfold column. destruct (mem DS l) eqn:El.
      * apply mem_In in El. rewrite (Fu i l Hi I El). ring.
      * apply mem_notIn in El. rewrite (Ag i l Hi Hl I El). reflexivity.
Qed.

Lemma one_call : forall solver s m b f s', exact_solver n solver -> ready s ->
  solve_system solver (Some (m, b)) f s = Ok s' ->
  ready s' /\ exists u, l_u s' = Some (m, u) /\ forall j, (j < m)%nat -> solves n A (column b j) ds (column u j).
Proof.
  intros solver s m b f s' Ex [W [Ec [[M [EA Ag]] [RC RI]]]] E.
  destruct s as [sd se sc sA sb sf sC sdd sr si su]. cbn in Ec, EA, RC, RI. subst sc sA.
  pose proof Hp as [F _]. cbn [app] in F.
  unfold solve_system in E. unfold set_rhs in E at 1.
  destruct (shape (n_eqns _) m b) eqn:Shb in E; [|discriminate]. rewrite (whole_n n _ W) in Shb.
  cbn [bind] in E. cbn [l_dofs l_d2e l_cons l_A l_C l_d l_rec l_inv l_u] in E.
  set (s0 := mkS sd se ds (Some M) (Some (m, b)) false sC sdd sr si su) in E.
  assert (SC : exists d, (match sC with None => set_constraint_relation s0 | Some _ => Ok s0 end) =
      Ok (mkS sd se ds (Some M) (Some (m, b)) false (Some C) d sr si su) /\ forall i, nth i d 0 == 0).
  { destruct sC as [C'|].
    - destruct RC as [-> D]. exists sdd. split; [reflexivity|exact D].
    - destruct (scr_ok n s0 W F) as [d [E1 [D0 D1]]]. exists d. split; [exact E1|].
      intro i. destruct (in_dec Nat.eq_dec i DS) as [I|I]; [|rewrite (D0 i I); reflexivity].
      destruct (D1 i I) as [c [Ic [_ V]]]. rewrite V. rewrite Forall_forall in Hz. apply Hz. exact Ic. }
  destruct SC as [d [E1 D]]. change (l_C s0) with sC in E. rewrite E1 in E. cbn [bind] in E.
  set (s1 := mkS sd se ds (Some M) (Some (m, b)) false (Some C) d sr si su) in E.
  pose proof (cm_ok n s1 M C W F eq_refl eq_refl) as E2. cbv zeta in E2.
  change (constrain_matrix s1 = Ok (mkS sd se ds (Some (scaled n (csteps n C M DS) DS)) (Some (m, b)) false (Some C) d (recs n C M DS) si su)) in E2.
  rewrite E2 in E. cbn [bind] in E.
  set (M' := scaled n (csteps n C M DS) DS) in *.
  assert (FM : full M') by (apply scaled_full; exact Ag).
  set (s2 := mkS sd se ds (Some M') (Some (m, b)) false (Some C) d (recs n C M DS) si su) in *.
  change (l_b_constrained s2) with false in E. cbv iota in E.
  destruct (rhs_free s2 m ds b 0 W D (incl_refl ds)) as [b' [E3 [S3 P3]]].
  { unfold s2. cbn [l_rec]. rewrite recs_length, map_length. cbn. lia. }
  { exact Shb. }
  assert (E3' : constrain_rhs s2 = Ok (mkS sd se ds (Some M') (Some (m, b')) true (Some C) d (recs n C M DS) si su)).
  { unfold constrain_rhs. change (l_b s2) with (Some (m, b)). change (l_b_constrained s2) with false. change (l_C s2) with (Some C).
    change (l_cons s2) with ds. cbv iota. rewrite E3. reflexivity. }
  rewrite E3' in E. cbn [bind] in E.
  set (s3 := mkS sd se ds (Some M') (Some (m, b')) true (Some C) d (recs n C M DS) si su) in *.
  assert (S4 : exists si' N, full N /\ (if f then si' = Some N else si' = si /\ N = M') /\
     (if f then match l_inv s3 with Some _ => Ok s3 | None => factor_matrix s3 end else Ok s3) =
       Ok (mkS sd se ds (Some M') (Some (m, b')) true (Some C) d (recs n C M DS) si' su)).
  { destruct f.
    - unfold s3. cbn [l_inv]. destruct si as [N|].
      + exists (Some N), N. split; [exact RI|]. split; reflexivity.
      + exists (Some M'), M'. split; [exact FM|]. split; reflexivity.
    - exists si, M'. split; [exact FM|]. split; [split; reflexivity|reflexivity]. }
  destruct S4 as [si' [N [FN [Fs E4]]]]. cbn [l_inv s2 s3 l_dofs l_d2e l_cons l_A l_C l_d l_rec l_u] in E, E4. fold s3 in E. fold s3 in E4.
  rewrite E4 in E. cbn [bind] in E. unfold invert_matrix in E. cbn [l_b l_b_constrained] in E.
  assert (E5 : exists u, solver N m b' = Some u /\
     s' = mkS sd se ds (Some M') (Some (m, b')) true (Some C) d (recs n C M DS) si' (Some (m, resolve n m C d u))).
  { assert (Ln : length sd = n) by (destruct W as [W _]; cbn in W; rewrite W; apply seq_length).
    destruct f.
    - subst si'. cbn [l_inv bind l_A] in E. destruct (solver N m b') as [u|]; [|discriminate]. exists u. split; [reflexivity|].
      cbn [bind] in E. unfold resolve_constraints, n_eqns in E. cbn [l_C l_u l_d l_dofs l_d2e l_cons l_A l_b l_b_constrained l_rec l_inv] in E. rewrite Ln in E. congruence.
    - destruct Fs as [-> ->]. cbn [l_inv bind l_A] in E. destruct (solver M' m b') as [u|]; [|discriminate]. exists u. split; [reflexivity|].
      cbn [bind] in E. unfold resolve_constraints, n_eqns in E. cbn [l_C l_u l_d l_dofs l_d2e l_cons l_A l_b l_b_constrained l_rec l_inv] in E. rewrite Ln in E. congruence. }
  destruct E5 as [u [Eu ->]]. destruct (Ex _ _ _ _ Eu) as [_ Hu]. split.
  - split; [exact W|]. split; [reflexivity|]. split; [exists M'; split; [reflexivity|apply FM]|]. split; [split; [reflexivity|exact D]|].
    cbn [l_inv]. destruct f; [subst si'; exact FN|]. destruct Fs as [-> _]. exact RI.
  - exists (resolve n m C d u). split; [reflexivity|]. intros j Hj.
    apply (free_solution N m b b' u d j FN D Hj); [intros i Hi; apply Hu; assumption|intros i Hi Ni; apply P3; assumption].
Qed.

Lemma all_calls : forall solver l s us, exact_solver n solver -> ready s -> solve_all solver l s = Ok us ->
  Forall2 (fun (q : nat * mat * bool) o => exists u, o = Some (fst (fst q), u) /\
     forall j, (j < fst (fst q))%nat -> solves n A (column (snd (fst q)) j) ds (column u j)) l us.
Proof.
  intros solver l. induction l as [|[[m b] f] l IH]; intros s us Ex R E.
  - cbn in E. injection E as <-. constructor.
  - cbn [solve_all] in E. destruct (solve_system solver (Some (m, b)) f s) as [s'|] eqn:E1; [|discriminate]. cbn [bind] in E.
    destruct (solve_all solver l s') as [us'|] eqn:E2; [|discriminate]. cbn in E. injection E as <-.
    destruct (one_call solver s m b f s' Ex R E1) as [R' [u [U S]]]. constructor.
    + exists u. split; [exact U|exact S].
    + apply (IH s' us' Ex R' E2).
Qed.
End Rep.
