(** * C76: matrices of integral operators *)
From Coq Require Import List Arith Bool QArith Lia.
From Verif Require Prop_Assemble.
From Verif Require Import NodalFacts Tree TreeFacts Geom Dof Solver SpecSolver SolverFacts SolverRun Basis Assemble SpecAssemble AssembleFacts AssembleRun AssembleCells AssembleArr AssembleMain IntForm SpecIntForm.
Import ListNotations.
Open Scope Q_scope.

(** ** Assembly when rows and columns are independent *)
Lemma assembled2 : forall order hng dir fuel keep dims cells af ar,
  lists_sets order -> NoDup (map fst cells) ->
  (forall r c r' c', in2 cells r c -> in2 cells r' c' -> in2 cells r c') ->
  assemble order hng dir fuel keep cells (init_forms dims) = Ok (af, ar) ->
  forall R, r2 ar = Some R -> matrix_of cells hng dir R /\
    (forall d, In d (m_rows R) -> exists r c, in2 cells r c /\ free_of hng dir r d) /\
    (forall d, In d (m_cols R) -> exists r c, in2 cells r c /\ free_of hng dir c d) /\
    (forall r c, in2 cells r c -> unconstrained hng dir r -> In r (m_rows R)) /\
    (forall r c, in2 cells r c -> unconstrained hng dir c -> In c (m_cols R)) /\ m_rows R <> [].
Proof.
  intros order hng dir fuel keep dims cells af ar O ND Pr E R HR. unfold assemble in E.
  destruct (assemble_cells hng dir fuel keep cells (init_forms dims)) as [af'|] eqn:EC; [|discriminate]. cbn [bind] in E.
  destruct (opt_res (consolidate1 order) (af1 af')) as [o1|] eqn:E1; [|discriminate]. cbn [bind] in E.
  destruct (opt_res (consolidate2 order) (af2 af')) as [o2|] eqn:E2; [|discriminate]. cbn [bind] in E. injection E as <- <-. cbn [r0 r1 r2] in HR. subst o2.
  destruct (cells_effect hng dir fuel keep cells _ _ ND (fun c _ => init_clean dims (fst c)) EC) as [_ [_ [I2 [_ [J2 [J3 _]]]]]].
  destruct (init_totals dims) as [_ [_ [Z2 [_ [Y2 Y3]]]]].
  destruct (af2 af') as [a|] eqn:Ea; [|discriminate]. cbn [opt_res] in E2.
  destruct (consolidate2 order a) as [R'|] eqn:ER; [|discriminate]. cbn [bind] in E2. injection E2 as ->.
  assert (PP : forall r c, In (r, c) (map pos (g2 a)) <-> exists r0 c0, in2 cells r0 c0 /\ free_of hng dir r0 r /\ free_of hng dir c0 c).
  { intros r c. split.
    - intros I. destruct (proj1 (J2 r c)) as [B|B]; [exists a; tauto|exfalso; exact (Y2 r c B)|exact B].
    - intros B. destruct (proj2 (J2 r c)) as [x [Q I]]; [right; exact B|]. rewrite Ea in Q. injection Q as <-. exact I. }
  assert (BB : forall r, In r (map fst (b2 a)) -> exists r0 c0, in2 cells r0 c0 /\ free_of hng dir r0 r).
  { intros r I. destruct (proj1 (J3 r)) as [B|[ra [ca [B [F _]]]]]; [exists a; tauto|exfalso; exact (Y3 r B)|]. exists ra, ca. tauto. }
  assert (NE := consolidate2_inv order O a R ER).
  assert (FX : exists rx cx r1 c1, in2 cells rx cx /\ free_of hng dir rx r1 /\ free_of hng dir cx c1).
  { destruct (g2 a) as [|[[r c] q] l] eqn:Eg; [congruence|]. destruct (proj1 (PP r c)) as [ra [ca [B [F F']]]]; [left; reflexivity|]. exists ra, ca, r, c. tauto. }
  destruct FX as [rx [cx [rf [cf [Ix [Fr Fc]]]]]].
  assert (Row : forall r r0 c0, in2 cells r0 c0 -> free_of hng dir r0 r -> In r (map (fun t => fst (fst t)) (g2 a))).
  { intros r ra ca I F. assert (X : In (r, cf) (map pos (g2 a))) by (apply PP; exists ra, cx; split; [apply (Pr ra ca rx cx I Ix)|tauto]).
    apply in_map_iff in X. destruct X as [t [Q X]]. apply in_map_iff. exists t. unfold pos in Q. split; [rewrite Q; reflexivity|exact X]. }
  assert (Col : forall c r0 c0, in2 cells r0 c0 -> free_of hng dir c0 c -> In c (map (fun t => snd (fst t)) (g2 a))).
  { intros c ra ca I F. assert (X : In (rf, c) (map pos (g2 a))) by (apply PP; exists rx, ca; split; [apply (Pr rx cx ra ca Ix I)|tauto]).
    apply in_map_iff in X. destruct X as [t [Q X]]. apply in_map_iff. exists t. unfold pos in Q. split; [|exact X]. rewrite Q. reflexivity. }
  assert (Row' : forall r, In r (map (fun t => fst (fst t)) (g2 a)) -> exists r0 c0, in2 cells r0 c0 /\ free_of hng dir r0 r).
  { intros d I. apply in_map_iff in I. destruct I as [[[r c] q] [Q I]]. cbn in Q. subst. apply (in_map pos) in I. apply PP in I. destruct I as [ra [ca [I [F _]]]]. exists ra, ca. tauto. }
  assert (Col' : forall c, In c (map (fun t => snd (fst t)) (g2 a)) -> exists r0 c0, in2 cells r0 c0 /\ free_of hng dir c0 c).
  { intros d I. apply in_map_iff in I. destruct I as [[[r c] q] [Q I]]. cbn in Q. subst. apply (in_map pos) in I. apply PP in I. destruct I as [ra [ca [I [_ F]]]]. exists ra, ca. tauto. }
  destruct (consolidate2_ok order O a NE) as [R'' [ER' [D [D' [L [X0 [X1 T]]]]]]].
  { intros r I. apply BB in I. destruct I as [ra [ca [I F]]]. exact (Row r ra ca I F). }
  assert (R'' = R) by congruence. subst R''.
  destruct (O (map (fun t => fst (fst t)) (g2 a))) as [Nd [S _]]. destruct (O (map (fun t => snd (fst t)) (g2 a))) as [Nd' [S' _]].
  split; [|split; [|split; [|split; [|split]]]].
  - split; [rewrite D; exact Nd|]. split; [rewrite D'; exact Nd'|]. split; [|split; [|split; [exact L|split; [exact X1|]]]].
    + apply Forall_forall. intros d I. rewrite D in I. apply S in I. apply Row' in I. destruct I as [ra [ca [_ F]]]. exact (free_unconstrained _ _ _ _ F).
    + apply Forall_forall. intros d I. rewrite D' in I. apply S' in I. apply Col' in I. destruct I as [ra [ca [_ F]]]. exact (free_unconstrained _ _ _ _ F).
    + intros v x Tv Tx. assert (X := I2 v x Tv Tx). unfold t2 in X at 1. rewrite Ea, Z2 in X.
      transitivity (total (blin v x) (g2 a) + total (lin v) (b2 a)); [exact (T v x)|]. rewrite X. ring.
  - intros d I. rewrite D in I. apply S in I. exact (Row' d I).
  - intros d I. rewrite D' in I. apply S' in I. exact (Col' d I).
  - intros r c I U. rewrite D. apply S. apply (Row r r c I). apply unconstrained_free. exact U.
  - intros r c I U. rewrite D'. apply S'. apply (Col c r c I). apply unconstrained_free. exact U.
  - intros Z. rewrite D in Z. assert (X := Row rf rx cx Ix Fr). apply S in X. rewrite Z in X. destruct X.
Qed.

Lemma assembled2_total : forall order hng dir keep cells,
  lists_sets order -> acyclic hng -> NoDup (map fst cells) ->
  (forall r c r' c', in2 cells r c -> in2 cells r' c' -> in2 cells r c') ->
  Forall (fun c => Forall form_shape (snd c) /\ snd c <> [] /\ Forall (fun f => kind f = 2%nat) (snd c)) cells ->
  (exists r c, in2 cells r c /\ unconstrained hng dir r /\ unconstrained hng dir c) ->
  exists N, forall fuel, (N <= fuel)%nat -> exists af ar R, assemble order hng dir fuel keep cells (init_forms [2%nat]) = Ok (af, ar) /\ r2 ar = Some R.
Proof.
  intros order hng dir keep cells O Ac ND Pr F [rx [cx [Ix [Ur Uc]]]].
  destruct (cells_ends hng dir Ac keep cells (init_forms [2%nat])) as [N HN].
  - eapply Forall_impl; [|exact F]. intros c H. apply H.
  - exact ND.
  - intros c _. apply init_clean.
  - intros c k I Lk. rewrite Forall_forall in F. destruct (F c I) as [_ [NE K]]. rewrite Forall_forall in K.
    assert (X : forall k, In k (map kind (snd c)) <-> k = 2%nat).
    { intros k'. rewrite in_map_iff. split; [intros [f [<- If]]; auto|]. intros ->. destruct (snd c) as [|f l]; [congruence|]. exists f. split; [apply K|]; left; reflexivity. }
    rewrite X. destruct k as [|[|[|k]]]; cbn; [| | |lia]; split; intros Q; try discriminate; try congruence; auto.
  - exists N. intros fuel L. destruct (HN fuel L) as [af' EC]. unfold assemble. rewrite EC. cbn [bind].
    destruct (cells_effect hng dir fuel keep cells _ _ ND (fun c _ => init_clean [2%nat] (fst c)) EC) as [_ [_ [_ [_ [J2 [J3 [K0 [K1 K2]]]]]]]].
    destruct (init_totals [2%nat]) as [_ [_ [_ [_ [Y2 Y3]]]]].
    destruct (af1 af') as [a1|] eqn:E1; [assert (X := proj2 K1 eq_refl); discriminate|]. cbn [opt_res bind].
    destruct (af2 af') as [a|] eqn:Ea; [|assert (X := proj1 K2 eq_refl); discriminate]. cbn [opt_res].
    assert (G : In (rx, cx) (map pos (g2 a))).
    { destruct (proj2 (J2 rx cx)) as [x [Q I]]; [right; exists rx, cx; split; [exact Ix|]; split; apply unconstrained_free; assumption|]. rewrite Ea in Q. injection Q as <-. exact I. }
    destruct (consolidate2_ok order O a) as [R [E _]].
    + intros Z. rewrite Z in G. destruct G.
    + intros r I. destruct (proj1 (J3 r)) as [B|[ra [ca [J [Fr _]]]]]; [exists a; tauto|exfalso; exact (Y3 r B)|].
      destruct (proj2 (J2 r cx)) as [x [Q J']]; [right; exists ra, cx; split; [apply (Pr ra ca rx cx J Ix)|]; split; [exact Fr|apply unconstrained_free; exact Uc]|].
      rewrite Ea in Q. injection Q as <-. apply in_map_iff in J'. destruct J' as [t [Q J']]. apply in_map_iff. exists t. unfold pos in Q. split; [rewrite Q; reflexivity|exact J'].
    + rewrite E. cbn [bind]. do 3 eexists. split; [reflexivity|]. reflexivity.
Qed.

(** ** the double loop *)
Section Loop.
Context (sym : bool) (tst trl : nat -> list nat) (M : nat -> nat -> mat).
Fixpoint pl (ci : nat) (cjs : list nat) : list local :=
  match cjs with
  | [] => []
  | cj :: rest =>
    if sym then
      if (ci =? cj)%nat then [Bilinear (tst ci) (trl cj) (M ci cj)]
      else Bilinear (tst ci) (trl cj) (M ci cj) :: Bilinear (trl cj) (tst ci) (transposed (length (tst ci)) (length (trl cj)) (M ci cj)) :: pl ci rest
    else Bilinear (tst ci) (trl cj) (M ci cj) :: pl ci rest
  end.
Lemma ip_loop_pl ci cjs : ip_loop sym tst trl (fun ci cj => Some (M ci cj)) ci cjs = Ok (pl ci cjs).
Proof.
  induction cjs as [|cj l IH]; [reflexivity|]. cbn [ip_loop pl]. destruct sym; [destruct (ci =? cj)%nat; [reflexivity|]|]; rewrite IH; reflexivity.
Qed.
Lemma ip_cells_pl cells : ip_cells sym tst trl (fun ci cj => Some (M ci cj)) cells = Ok (map (fun ci => (ci, pl ci cells)) cells).
Proof. unfold ip_cells. apply mr_ok. intros ci _. rewrite ip_loop_pl. reflexivity. Qed.
Lemma pl_kinds ci cjs : Forall (fun f => kind f = 2%nat) (pl ci cjs).
Proof. induction cjs as [|cj l IH]; cbn [pl]; [constructor|]. destruct sym; [destruct (ci =? cj)%nat|]; repeat constructor; auto. Qed.
Lemma pl_nonempty ci cjs : cjs <> [] -> pl ci cjs <> [].
Proof. destruct cjs; [congruence|]. intros _. cbn [pl]. destruct sym; [destruct (ci =? n)%nat|]; discriminate. Qed.
Lemma pl_shapes ci cjs : (forall cj, In cj cjs -> shape (length (tst ci)) (length (trl cj)) (M ci cj) = true) -> Forall form_shape (pl ci cjs).
Proof.
  induction cjs as [|cj l IH]; intros H; cbn [pl]; [constructor|]. assert (IH' := IH (fun c I => H c (or_intror I))). assert (H0 := H cj (or_introl eq_refl)).
  destruct sym; [destruct (ci =? cj)%nat|]; repeat (constructor; auto). cbn. apply shape_tab.
Qed.
End Loop.

Definition bil (tst trl : nat -> list nat) (M : nat -> nat -> mat) (v x : vec) (ci cj : nat) : Q :=
  bilinear_local v x (Bilinear (tst ci) (trl cj) (M ci cj)).
Lemma map_fst_pl (g : nat -> list local) cells : map fst (map (fun ci => (ci, g ci)) cells) = cells.
Proof. rewrite map_map. cbn. apply map_id. Qed.
Lemma over_map (g : nat -> list local) h cells : over_cells h (map (fun ci => (ci, g ci)) cells) == total (fun ci => total h (g ci)) cells.
Proof. unfold over_cells. rewrite total_map. cbn [snd]. reflexivity. Qed.
Lemma pair_form_bil tst trl M cells v x : pair_form tst trl M cells v x == total (fun ci => total (bil tst trl M v x ci) cells) cells.
Proof. reflexivity. Qed.

(** the loop without the shortcut *)
Lemma pl_full tst trl M v x ci cjs : total (bilinear_local v x) (pl false tst trl M ci cjs) == total (bil tst trl M v x ci) cjs.
Proof. induction cjs as [|cj l IH]; [reflexivity|]. cbn [pl]. rewrite !total_cons, IH. reflexivity. Qed.
Lemma in2_full tst trl M cells r c : in2 (map (fun ci => (ci, pl false tst trl M ci cells)) cells) r c <-> exists ci cj, In ci cells /\ In cj cells /\ In r (tst ci) /\ In c (trl cj).
Proof.
  assert (X : forall ci cjs f, In f (pl false tst trl M ci cjs) <-> exists cj, In cj cjs /\ f = Bilinear (tst ci) (trl cj) (M ci cj)).
  { intros ci cjs f. induction cjs as [|cj l IH]; cbn [pl]; [split; [intros []|intros [cj [[] _]]]|]. cbn [In]. rewrite IH. split.
    - intros [<-|[c' [I ->]]]; [exists cj|exists c']; auto.
    - intros [c' [[->|I] ->]]; [left; auto|right; exists c'; auto]. }
  split.
  - intros [k [f [Ik [If Ip]]]]. apply in_map_iff in Ik. destruct Ik as [ci [<- Ici]]. cbn [snd] in If. apply X in If. destruct If as [cj [Icj ->]].
    apply entries2_pos in Ip. exists ci, cj. tauto.
  - intros [ci [cj [I1 [I2 [Hr Hc]]]]]. exists (ci, pl false tst trl M ci cells), (Bilinear (tst ci) (trl cj) (M ci cj)).
    split; [apply in_map_iff; exists ci; auto|]. split; [apply X; exists cj; auto|]. apply entries2_pos. auto.
Qed.

(** the symmetric shortcut *)
Fixpoint before (c : nat) (l : list nat) : list nat :=
  match l with [] => [] | d :: r => if (c =? d)%nat then [] else d :: before c r end.
Lemma before_app_in c l r : In c l -> before c (l ++ r) = before c l.
Proof. induction l as [|d l IH]; intros I; [destruct I|]. cbn. destruct (Nat.eqb_spec c d); [reflexivity|]. rewrite IH; [reflexivity|]. destruct I; congruence. Qed.
Lemma before_app_notin c l r : ~ In c l -> before c (l ++ c :: r) = l.
Proof. induction l as [|d l IH]; intros I; cbn; [rewrite Nat.eqb_refl; reflexivity|]. destruct (Nat.eqb_spec c d); [exfalso; apply I; left; congruence|]. rewrite IH; [reflexivity|]. intros J; apply I; right; exact J. Qed.
Lemma pl_before D M v x ci cjs : In ci cjs ->
  total (bilinear_local v x) (pl true D D M ci cjs) ==
  total (fun cj => bil D D M v x ci cj + bilinear_local v x (Bilinear (D cj) (D ci) (transposed (length (D ci)) (length (D cj)) (M ci cj)))) (before ci cjs) + bil D D M v x ci ci.
Proof.
  induction cjs as [|cj l IH]; intros I; [destruct I|]. cbn [pl before]. destruct (Nat.eqb_spec ci cj) as [->|N].
  - rewrite total_cons, !total_nil. unfold bil. ring.
  - rewrite !total_cons, IH by (destruct I; congruence). unfold bil. ring.
Qed.
Lemma triangle_sum (g h : nat -> nat -> Q) l : NoDup l -> (forall i j, In i l -> In j l -> h i j == g j i) ->
  total (fun i => total (fun j => g i j + h i j) (before i l) + g i i) l == total (fun i => total (g i) l) l.
Proof.
  induction l as [|x l IH] using rev_ind; intros N H; [reflexivity|].
  assert (Nx : ~ In x l) by (apply NoDup_remove_2 in N; rewrite app_nil_r in N; exact N).
  assert (N' : NoDup l) by (apply NoDup_remove_1 in N; rewrite app_nil_r in N; exact N).
  rewrite !total_app, !total_cons, !total_nil.
  rewrite (total_ext _ (fun i => total (fun j => g i j + h i j) (before i (l ++ [x])) + g i i) (fun i => total (fun j => g i j + h i j) (before i l) + g i i)).
  2:{ intros i I. rewrite before_app_in by exact I. reflexivity. }
  rewrite IH; [|exact N'|intros i j I J; apply H; apply in_or_app; left; assumption].
  rewrite before_app_notin by exact Nx.
  rewrite (total_ext _ (fun i => total (g i) (l ++ [x])) (fun i => total (g i) l + g i x)).
  2:{ intros i I. rewrite total_app, total_cons, total_nil. ring. }
  rewrite total_plus, total_app, total_cons, total_nil, total_plus.
  rewrite (total_ext _ (h x) (fun j => g j x)); [ring|]. intros j J. apply H; apply in_or_app; [right; left; reflexivity|left; exact J].
Qed.
Definition mutual (D : nat -> list nat) (M : nat -> nat -> mat) (cells : list nat) : Prop :=
  forall ci cj i j, In ci cells -> In cj cells -> (i < length (D ci))%nat -> (j < length (D cj))%nat -> entry (M cj ci) j i == entry (M ci cj) i j.
Lemma transposed_bil D M cells v x ci cj : mutual D M cells -> In ci cells -> In cj cells ->
  bilinear_local v x (Bilinear (D cj) (D ci) (transposed (length (D ci)) (length (D cj)) (M ci cj))) == bil D D M v x cj ci.
Proof.
  intros Mu I J. unfold bil. cbn [bilinear_local]. apply sum_ext. intros b Hb. apply sum_ext. intros a Ha.
  unfold transposed. rewrite entry_tab by assumption. rewrite (Mu ci cj a b I J Ha Hb). reflexivity.
Qed.
Lemma pl_sym D M cells v x : NoDup cells -> mutual D M cells ->
  over_cells (bilinear_local v x) (map (fun ci => (ci, pl true D D M ci cells)) cells) == pair_form D D M cells v x.
Proof.
  intros N Mu. rewrite over_map, pair_form_bil.
  rewrite <- (triangle_sum (bil D D M v x) (fun ci cj => bilinear_local v x (Bilinear (D cj) (D ci) (transposed (length (D ci)) (length (D cj)) (M ci cj)))) cells N).
  - apply total_ext. intros ci I. apply pl_before. exact I.
  - intros ci cj I J. apply (transposed_bil D M cells); assumption.
Qed.
Lemma pl_sym_in D M ci cjs f : In f (pl true D D M ci cjs) -> exists a b (X : mat), (In a cjs \/ a = ci) /\ (In b cjs \/ b = ci) /\ f = Bilinear (D a) (D b) X.
Proof.
  induction cjs as [|cj l IH]; cbn [pl]; [intros []|]. destruct (ci =? cj)%nat.
  - intros [<-|[]]. exists ci, cj. eexists. split; [right; reflexivity|]. split; [left; left; reflexivity|reflexivity].
  - intros [<-|[<-|I]].
    + exists ci, cj. eexists. split; [right; reflexivity|]. split; [left; left; reflexivity|reflexivity].
    + exists cj, ci. eexists. split; [left; left; reflexivity|]. split; [right; reflexivity|reflexivity].
    + destruct (IH I) as [a [b [X [A [B ->]]]]]. exists a, b, X. split; [destruct A; [left; right; assumption|right; assumption]|]. split; [destruct B; [left; right; assumption|right; assumption]|reflexivity].
Qed.
Lemma pl_sym_has D M ci cjs cj : In cj (before ci cjs) -> (exists X : mat, In (Bilinear (D ci) (D cj) X) (pl true D D M ci cjs)) /\ (exists X : mat, In (Bilinear (D cj) (D ci) X) (pl true D D M ci cjs)).
Proof.
  induction cjs as [|c l IH]; cbn [pl before]; [intros []|]. destruct (ci =? c)%nat; [intros []|]. intros [->|I].
  - split; eexists; [left; reflexivity|right; left; reflexivity].
  - destruct (IH I) as [[X A] [Y B]]. split; [exists X|exists Y]; right; right; assumption.
Qed.
Lemma pl_sym_diag D M ci cjs : In ci cjs -> In (Bilinear (D ci) (D ci) (M ci ci)) (pl true D D M ci cjs).
Proof.
  induction cjs as [|c l IH]; cbn [pl]; [intros []|]. destruct (Nat.eqb_spec ci c) as [->|N]; [intros _; left; reflexivity|].
  intros [E|I]; [congruence|]. right. right. apply IH. exact I.
Qed.
Lemma before_total l : forall a b : nat, In a l -> In b l -> a <> b -> In a (before b l) \/ In b (before a l).
Proof.
  induction l as [|c l IH]; intros a b A B N; [destruct A|]. cbn [before]. destruct (Nat.eqb_spec b c) as [->|Nb], (Nat.eqb_spec a c) as [->|Na]; try congruence.
  - right. left. reflexivity.
  - left. left. reflexivity.
  - destruct A as [A|A]; [congruence|]. destruct B as [B|B]; [congruence|]. destruct (IH a b A B N); [left|right]; right; assumption.
Qed.
Lemma in2_sym D M cells r c : in2 (map (fun ci => (ci, pl true D D M ci cells)) cells) r c <-> exists ci cj, In ci cells /\ In cj cells /\ In r (D ci) /\ In c (D cj).
Proof.
  split.
  - intros [k [f [Ik [If Ip]]]]. apply in_map_iff in Ik. destruct Ik as [ci [<- Ici]]. cbn [snd] in If. apply pl_sym_in in If. destruct If as [a [b [X [A [B ->]]]]].
    apply entries2_pos in Ip. exists a, b. destruct A as [A| ->], B as [B| ->]; tauto.
  - intros [a [b [A [B [Hr Hc]]]]]. destruct (Nat.eq_dec a b) as [->|N].
    + exists (b, pl true D D M b cells), (Bilinear (D b) (D b) (M b b)). split; [apply in_map_iff; exists b; auto|]. split; [apply pl_sym_diag; exact B|]. apply entries2_pos. auto.
    + destruct (before_total cells a b A B N) as [I|I].
      * destruct (pl_sym_has D M b cells a I) as [_ [X H]]. exists (b, pl true D D M b cells), (Bilinear (D a) (D b) X). split; [apply in_map_iff; exists b; auto|]. split; [exact H|]. apply entries2_pos. auto.
      * destruct (pl_sym_has D M a cells b I) as [[X H] _]. exists (a, pl true D D M a cells), (Bilinear (D a) (D b) X). split; [apply in_map_iff; exists a; auto|]. split; [exact H|]. apply entries2_pos. auto.
Qed.

(** ** C76 *)
Lemma matrix_form a cells hng dir R : (forall v x, over_cells (bilinear_local v x) cells == a v x) -> matrix_of cells hng dir R -> matrix_of_form a hng dir R.
Proof.
  intros E [H1 [H2 [H3 [H4 [H5 [H6 H7]]]]]]. split; [exact H1|]. split; [exact H2|]. split; [exact H3|]. split; [exact H4|]. split; [exact H5|]. split; [exact H6|].
  intros v x Tv Tx. rewrite (H7 v x Tv Tx). apply E.
Qed.
Definition dof_in (D : nat -> list nat) (cells : list nat) (d : nat) : Prop := exists c, In c cells /\ In d (D c).

Lemma ip_core : forall (sym : bool) order hng dir fuel keep tst trl M cells af ar R,
  lists_sets order -> NoDup cells -> (sym = true -> tst = trl /\ mutual tst M cells) ->
  ip_assemble sym tst trl (fun ci cj => Some (M ci cj)) order hng dir fuel keep cells = Ok (af, ar) -> r2 ar = Some R ->
  matrix_of_form (pair_form tst trl M cells) hng dir R /\
  (forall d, unconstrained hng dir d -> dof_in tst cells d -> In d (m_rows R)) /\
  (forall d, unconstrained hng dir d -> dof_in trl cells d -> In d (m_cols R)).
Proof.
  intros sym order hng dir fuel keep tst trl M cells af ar R O N Sy E ER. unfold ip_assemble in E. rewrite ip_cells_pl in E. cbn [bind] in E.
  assert (I2 : forall r c, in2 (map (fun ci => (ci, pl sym tst trl M ci cells)) cells) r c <-> exists ci cj, In ci cells /\ In cj cells /\ In r (tst ci) /\ In c (trl cj)).
  { intros r c. destruct sym; [destruct (Sy eq_refl) as [-> _]; apply in2_sym|apply in2_full]. }
  assert (Pr : forall r c r' c', in2 (map (fun ci => (ci, pl sym tst trl M ci cells)) cells) r c -> in2 (map (fun ci => (ci, pl sym tst trl M ci cells)) cells) r' c' ->
                 in2 (map (fun ci => (ci, pl sym tst trl M ci cells)) cells) r c').
  { intros r c r' c'. rewrite !I2. intros [a [b [H1 [_ [H3 _]]]]] [a' [b' [_ [H6 [_ H8]]]]]. exists a, b'. tauto. }
  assert (N' : NoDup (map fst (map (fun ci => (ci, pl sym tst trl M ci cells)) cells))) by (rewrite map_fst_pl; exact N).
  destruct (assembled2 _ _ _ _ _ _ _ _ _ O N' Pr E R ER) as [A [Hr0 [_ [B [C NE]]]]].
  assert (Ex : exists r c, in2 (map (fun ci => (ci, pl sym tst trl M ci cells)) cells) r c).
  { destruct (m_rows R) as [|d l]; [congruence|]. destruct (Hr0 d (or_introl eq_refl)) as [r [c [H _]]]. eauto. }
  destruct Ex as [rx [cx Ix]]. apply I2 in Ix. destruct Ix as [a [b [Ha [Hb [Hr Hc]]]]].
  split; [|split].
  - apply (matrix_form _ (map (fun ci => (ci, pl sym tst trl M ci cells)) cells)); [|exact A]. intros v x. destruct sym.
    + destruct (Sy eq_refl) as [<- Mu]. apply pl_sym; assumption.
    + rewrite over_map, pair_form_bil. apply total_ext. intros ci _. apply pl_full.
  - intros d U [ci [I J]]. apply (B d cx); [|exact U]. apply I2. exists ci, b. tauto.
  - intros d U [cj [I J]]. apply (C rx d); [|exact U]. apply I2. exists a, cj. tauto.
Qed.

(** The matrix of an IPForm is that of the double sum over all pairs of cells; its
    rows (columns) contain the unconstrained test (trial) dofs of the cells.  Test
    and trial space may be different. *)
Theorem C76_assembled : forall order hng dir fuel keep tst trl M cells af ar R,
  lists_sets order -> NoDup cells ->
  ip_assemble false tst trl (fun ci cj => Some (M ci cj)) order hng dir fuel keep cells = Ok (af, ar) -> r2 ar = Some R ->
  matrix_of_form (pair_form tst trl M cells) hng dir R /\
  (forall d, unconstrained hng dir d -> dof_in tst cells d -> In d (m_rows R)) /\
  (forall d, unconstrained hng dir d -> dof_in trl cells d -> In d (m_cols R)).
Proof. intros. eapply (ip_core false); eauto. discriminate. Qed.
Print Assumptions C76_assembled.
(** With a symmetric kernel only the pairs with cj up to ci are evaluated: the matrix
    is the same if test and trial functions are the same, so that the local matrices of
    (ci, cj) and (cj, ci) are transposes of each other *)
Theorem C76_symmetric_partial : forall order hng dir fuel keep D M cells af ar R,
  lists_sets order -> NoDup cells ->
  (forall ci cj i j, In ci cells -> In cj cells -> (i < length (D ci))%nat -> (j < length (D cj))%nat -> entry (M cj ci) j i == entry (M ci cj) i j) ->
  ip_assemble true D D (fun ci cj => Some (M ci cj)) order hng dir fuel keep cells = Ok (af, ar) -> r2 ar = Some R ->
  matrix_of_form (pair_form D D M cells) hng dir R /\
  (forall d, unconstrained hng dir d -> dof_in D cells d -> In d (m_rows R) /\ In d (m_cols R)).
Proof.
  intros order hng dir fuel keep D M cells af ar R O N Mu E ER.
  destruct (ip_core true order hng dir fuel keep D D M cells af ar R O N (fun _ => conj eq_refl Mu) E ER) as [A [B C]]. split; [exact A|]. intros d U I. split; auto.
Qed.
Print Assumptions C76_symmetric_partial.
(** assembly succeeds *)
Theorem C76_total : forall (sym : bool) order hng dir keep tst trl M cells,
  lists_sets order -> acyclic hng -> NoDup cells -> (sym = true -> tst = trl) ->
  (forall ci cj, In ci cells -> In cj cells -> shape (length (tst ci)) (length (trl cj)) (M ci cj) = true) ->
  (exists r, dof_in tst cells r /\ unconstrained hng dir r) -> (exists c, dof_in trl cells c /\ unconstrained hng dir c) ->
  exists fuel0, forall fuel, (fuel0 <= fuel)%nat -> exists af ar R,
    ip_assemble sym tst trl (fun ci cj => Some (M ci cj)) order hng dir fuel keep cells = Ok (af, ar) /\ r2 ar = Some R.
Proof.
  intros sym order hng dir keep tst trl M cells O Ac N Sy Sh [r [[cr [Icr Jr]] Ur]] [c [[cc [Icc Jc]] Uc]].
  unfold ip_assemble. rewrite ip_cells_pl. cbn [bind].
  assert (I2 : forall r c, in2 (map (fun ci => (ci, pl sym tst trl M ci cells)) cells) r c <-> exists ci cj, In ci cells /\ In cj cells /\ In r (tst ci) /\ In c (trl cj)).
  { intros r0 c0. destruct sym; [rewrite (Sy eq_refl); apply in2_sym|apply in2_full]. }
  apply assembled2_total; auto.
  - rewrite map_fst_pl. exact N.
  - intros r0 c0 r' c'. rewrite !I2. intros [a [b [H1 [_ [H3 _]]]]] [a' [b' [_ [H6 [_ H8]]]]]. exists a, b'. tauto.
  - apply Forall_forall. intros k Ik. apply in_map_iff in Ik. destruct Ik as [ci [<- Ici]]. cbn [snd]. split; [|split].
    + apply pl_shapes. intros cj Icj. apply Sh; assumption.
    + apply pl_nonempty. intros Z. rewrite Z in Ici. destruct Ici.
    + apply pl_kinds.
  - exists r, c. split; [apply I2; exists cr, cc; tauto|]. tauto.
Qed.
Print Assumptions C76_total.
(** If the form is restricted by a flag and some cell has no region, assembling fails *)
Theorem C76_flag_refuted : forall (sym : bool) order hng dir fuel keep tst trl (has : nat -> bool) M cells c,
  In c cells -> has c = false ->
  ip_assemble sym tst trl (fun ci cj => if has ci && has cj then Some (M ci cj) else None) order hng dir fuel keep cells = Err AttributeError.
Proof.
  intros sym order hng dir fuel keep tst trl has M cells c I H. unfold ip_assemble.
  assert (X : forall l, In c l -> map_res (fun ci => bind (ip_loop sym tst trl (fun ci cj => if has ci && has cj then Some (M ci cj) else None) ci cells) (fun ls => Ok (ci, ls))) l = Err AttributeError).
  2:{ unfold ip_cells. rewrite (X cells I). reflexivity. }
  assert (Er : forall ci cjs e, ip_loop sym tst trl (fun ci cj => if has ci && has cj then Some (M ci cj) else None) ci cjs = Err e -> e = AttributeError).
  { intros ci. induction cjs as [|cj r IH]; intros e; cbn [ip_loop]; [discriminate|]. destruct (has ci && has cj)%bool; [|congruence].
    destruct sym; [destruct (ci =? cj)%nat; [discriminate|]|]; (destruct (ip_loop _ _ _ _ ci r) as [ls|e'] eqn:E'; cbn [bind]; [discriminate|]; intros Q; injection Q as <-; apply IH; reflexivity). }
  induction l as [|ci l IH]; intros J; [destruct J|]. cbn [map_res].
  destruct (ip_loop sym tst trl _ ci cells) as [ls|e] eqn:E1; cbn [bind]; [|rewrite (Er _ _ _ E1); reflexivity].
  destruct J as [->|J]; [|rewrite (IH J); reflexivity]. exfalso.
  destruct cells as [|c0 cs]; [destruct I|]. cbn [ip_loop] in E1. rewrite H in E1. discriminate.
Qed.
Print Assumptions C76_flag_refuted.

(** IIForm (interpolation): row i of the matrix belongs to the i-th interpolation point *)
Theorem C76_interpolation : forall order hng dir fuel keep all trl M cells af ar R,
  lists_sets order -> NoDup cells ->
  ii_assemble order hng dir fuel keep all trl (fun ci => Some (M ci)) cells = Ok (af, ar) -> r2 ar = Some R ->
  matrix_of_form (collocation_form all trl M cells) hng dir R /\
  (forall d, unconstrained hng dir d -> In d all -> In d (m_rows R)) /\
  (forall d, unconstrained hng dir d -> dof_in trl cells d -> In d (m_cols R)).
Proof.
  intros order hng dir fuel keep all trl M cells af ar R O N E ER. unfold ii_assemble, ii_cells in E.
  rewrite (mr_ok _ (fun ci => (ci, [Bilinear all (trl ci) (M ci)]))) in E by reflexivity. cbn [bind] in E.
  set (cs := map (fun ci => (ci, [Bilinear all (trl ci) (M ci)])) cells) in *.
  assert (I2 : forall r c, in2 cs r c <-> In r all /\ dof_in trl cells c).
  { intros r c. split.
    - intros [k [f [Ik [If Ip]]]]. apply in_map_iff in Ik. destruct Ik as [ci [<- Ici]]. destruct If as [<-|[]]. apply entries2_pos in Ip. split; [tauto|]. exists ci. tauto.
    - intros [Hr [ci [I J]]]. exists (ci, [Bilinear all (trl ci) (M ci)]), (Bilinear all (trl ci) (M ci)).
      split; [apply in_map_iff; exists ci; auto|]. split; [left; reflexivity|]. apply entries2_pos. auto. }
  assert (N' : NoDup (map fst cs)) by (unfold cs; rewrite map_fst_pl; exact N).
  destruct (assembled2 _ _ _ _ _ _ _ _ _ O N' ltac:(intros r c r' c'; rewrite !I2; tauto) E R ER) as [A [Hr0 [_ [B [C NE]]]]].
  assert (Ex : exists r c, in2 cs r c) by (destruct (m_rows R) as [|d l]; [congruence|]; destruct (Hr0 d (or_introl eq_refl)) as [r [c [H _]]]; eauto).
  destruct Ex as [rx [cx Ix]]. apply I2 in Ix. destruct Ix as [Hr Hc].
  split; [|split].
  - apply (matrix_form _ cs); [|exact A]. intros v x. unfold cs. rewrite over_map. unfold collocation_form. apply total_ext. intros ci _. rewrite total_cons, total_nil. cbn [bilinear_local]. ring.
  - intros d U I. apply (B d cx); [|exact U]. apply I2. auto.
  - intros d U I. apply (C rx d); [|exact U]. apply I2. auto.
Qed.
Print Assumptions C76_interpolation.

(** The shortcut looks only at the kernel: with the kernel 1, the hat functions of two
    cells for the test and their derivatives for the trial space, the matrix is wrong *)
Definition hat_dofs (c : nat) : list nat := [c; S c].
Definition mean_slope (ci cj : nat) : mat := [[-(1 # 2); 1 # 2]; [-(1 # 2); 1 # 2]].
Theorem C76_symmetric_refuted :
  exists af ar R, ip_assemble true hat_dofs hat_dofs (fun ci cj => Some (mean_slope ci cj)) Prop_Assemble.sorted_set [] [] 50 true [0; 1]%nat = Ok (af, ar) /\
  r2 ar = Some R /\ m_rows R = [0; 1; 2]%nat /\ m_cols R = [0; 1; 2]%nat /\
  Forall2 (Forall2 Qeq) (m_mat R) [[-(1 # 2); 0; -(1 # 2)]; [-1; 1; 1]; [-(1 # 2); 0; 1 # 2]] /\
  forall i j, (i < 3)%nat -> (j < 3)%nat ->
    pair_form hat_dofs hat_dofs mean_slope [0; 1]%nat (unit_vec i) (unit_vec j) == entry [[-(1 # 2); 0; 1 # 2]; [-1; 0; 1]; [-(1 # 2); 0; 1 # 2]] i j.
Proof.
  do 3 eexists. split; [vm_compute; reflexivity|]. split; [reflexivity|]. split; [reflexivity|]. split; [reflexivity|]. split; [repeat constructor; reflexivity|].
  intros i j Hi Hj. destruct i as [|[|[|i]]]; try lia; destruct j as [|[|[|j]]]; try lia; vm_compute; reflexivity.
Qed.
Print Assumptions C76_symmetric_refuted.
(** the same cells without the shortcut, and the kernel 1 with hat functions *)
Definition mean_mean (ci cj : nat) : mat := [[1 # 4; 1 # 4]; [1 # 4; 1 # 4]].
Example C76_case : exists R R' R'',
  (match ip_assemble false hat_dofs hat_dofs (fun ci cj => Some (mean_slope ci cj)) Prop_Assemble.sorted_set [] [] 50 true [0; 1]%nat with Ok (_, ar) => r2 ar | Err _ => None end = Some R /\
   Forall2 (Forall2 Qeq) (m_mat R) [[-(1 # 2); 0; 1 # 2]; [-1; 0; 1]; [-(1 # 2); 0; 1 # 2]]) /\
  (match ip_assemble true hat_dofs hat_dofs (fun ci cj => Some (mean_mean ci cj)) Prop_Assemble.sorted_set [] [(0%nat, 3)] 50 true [0; 1]%nat with Ok (_, ar) => r2 ar | Err _ => None end = Some R' /\
   m_rows R' = [1; 2]%nat /\ Forall2 (Forall2 Qeq) (m_mat R') [[1; 1 # 2]; [1 # 2; 1 # 4]] /\ (exists x0, m_x0 R' = Some x0 /\ Forall2 Qeq x0 [3 # 2; 3 # 4])) /\
  (match ii_assemble Prop_Assemble.sorted_set [] [] 50 true [0; 1; 2]%nat hat_dofs (fun _ => Some [[1 # 2; 1 # 2]; [1 # 2; 1 # 2]; [1 # 2; 1 # 2]]) [0; 1]%nat with Ok (_, ar) => r2 ar | Err _ => None end = Some R'' /\
   Forall2 (Forall2 Qeq) (m_mat R'') [[1 # 2; 1; 1 # 2]; [1 # 2; 1; 1 # 2]; [1 # 2; 1; 1 # 2]]).
Proof.
  do 3 eexists. split; [split; [vm_compute; reflexivity|repeat constructor; reflexivity]|].
  split; [split; [vm_compute; reflexivity|]; split; [reflexivity|]; split; [repeat constructor; reflexivity|]; eexists; split; [reflexivity|repeat constructor; reflexivity]|].
  split; [vm_compute; reflexivity|repeat constructor; reflexivity].
Qed.
