(** * C78: samples *)
From Coq Require Import List Arith Bool QArith Lia.
From Verif Require Prop_Assemble NodalFacts.
From Verif Require Import Tree TreeFacts Geom Dof Solver Basis Assemble Samples SpecSamples SamplesFacts.
Import ListNotations.
Open Scope Q_scope.

(** ** consolidation *)
Lemma np_array_ok n l : Forall (fun r : row => length r = n) l -> np_array l = Ok l.
Proof.
  intros F. unfold np_array. destruct l as [|r l]; [reflexivity|]. match goal with |- (if ?b then _ else _) = _ => assert (X : b = true) end.
  { apply forallb_forall. intros x I. rewrite Forall_forall in F. apply Nat.eqb_eq. rewrite (F r (or_introl eq_refl)). apply F. exact I. }
  rewrite X. reflexivity.
Qed.
Lemma column_ok i n l : (i < n)%nat -> Forall (fun r : row => length r = n) l -> column i l = Ok (prow i l).
Proof.
  intros H F. unfold column, prow. apply NodalFacts.mr_ok. intros r I. rewrite Forall_forall in F. rewrite (nth_error_nth' r 0) by (rewrite (F r I); exact H). reflexivity.
Qed.
Lemma columns_ok {X} n l (f : list Q -> X) : Forall (fun r : row => length r = n) l ->
  map_res (fun i => bind (column i l) (fun c => Ok (f c))) (seq 0 n) = Ok (map (fun i => f (prow i l)) (seq 0 n)).
Proof. intros F. apply NodalFacts.mr_ok. intros i I. apply in_seq in I. rewrite (column_ok i n l) by (assumption || lia). reflexivity. Qed.
Lemma nth_seq_map {X} (f : nat -> X) d n i : (i < n)%nat -> nth i (map f (seq 0 n)) d = f i.
Proof. intros H. rewrite (nth_mapq f 0%nat) by (rewrite seq_length; exact H). rewrite seq_nth by exact H. reflexivity. Qed.

Lemma fst_p1 i l : map fst (p1 i l) = map fst l.
Proof. unfold p1. rewrite map_map. reflexivity. Qed.
Lemma fst_p2 {X} (f : nat * nat -> X) i l : map (fun t => f (fst t)) (p2 i l) = map (fun t => f (fst t)) l.
Proof. unfold p2. rewrite map_map. reflexivity. Qed.
Lemma index_combine {U} (ix : U -> res nat) i : forall l : list (U * row),
  map_res (fun p => bind (ix (fst p)) (fun k => Ok (k, snd p))) (map (fun p => (fst p, nth i (snd p) 0)) l) =
  res_map (fun rows => combine rows (prow i (map snd l))) (map_res (fun p => ix (fst p)) l).
Proof.
  induction l as [|[u r] l IH]; [reflexivity|]. cbn [map map_res fst snd]. destruct (ix u) as [k|e]; cbn [bind res_map]; [|reflexivity].
  rewrite IH. destruct (map_res (fun p => ix (fst p)) l) as [rows|e]; reflexivity.
Qed.
Lemma index_combine2 (ix : nat -> res nat) (ix' : nat -> res nat) i : forall l : list (nat * nat * row),
  map_res (fun t => bind (ix (fst (fst t))) (fun a => bind (ix' (snd (fst t))) (fun b => Ok (a, b, snd t)))) (p2 i l) =
  res_map (fun rc => combine rc (prow i (map snd l))) (map_res (fun t => bind (ix (fst (fst t))) (fun a => bind (ix' (snd (fst t))) (fun b => Ok (a, b)))) l).
Proof.
  unfold p2. induction l as [|[[u v] r] l IH]; [reflexivity|]. cbn [map map_res fst snd]. destruct (ix u) as [k|e]; cbn [bind res_map]; [|reflexivity].
  destruct (ix' v) as [k'|e]; cbn [bind res_map]; [|reflexivity]. rewrite IH.
  destruct (map_res _ l) as [rows|e]; reflexivity.
Qed.
Lemma map_res_nil {U V} (f : U -> res V) l : map_res f l = Ok [] -> l = [].
Proof. destruct l as [|a l]; [reflexivity|]. cbn. destruct (f a); [|discriminate]. cbn. destruct (map_res f l); discriminate. Qed.

Lemma sat_snd {U} n (l : list (U * row)) : Forall (fun p => length (snd p) = n) l -> Forall (fun r : row => length r = n) (map snd l).
Proof. intros F. apply Forall_forall. intros r I. apply in_map_iff in I. destruct I as [p [<- I]]. rewrite Forall_forall in F. apply F. exact I. Qed.

Lemma consolidate0_sample n i a : (i < n)%nat -> ok0 n a -> exists r, sconsolidate0 n a = Ok r /\ nth i r 0 = c_val (consolidate0 (q0 i a)).
Proof.
  intros H [_ B]. unfold sconsolidate0. rewrite (np_array_ok n) by exact B. cbn [bind]. rewrite (columns_ok n (sg0 a) (fold_right Qplus 0)) by exact B.
  eexists. split; [reflexivity|]. rewrite nth_seq_map by exact H. reflexivity.
Qed.
Lemma consolidate1_sample order n i a : (i < n)%nat -> ok1 n a ->
  consolidate1 order (q1 i a) = res_map (fun T => mkR1 (sv_dofs T) (nth i (sv_vecs T) [])) (sconsolidate1 order n a).
Proof.
  intros H [_ B]. unfold consolidate1, sconsolidate1. cbn [q1 g1]. rewrite fst_p1. destruct (make_d2e (order (map fst (sg1 a)))) as [d2i|e]; cbn [bind res_map]; [|reflexivity].
  assert (B' := sat_snd n _ B). rewrite (np_array_ok n) by exact B'. cbn [bind].
  assert (X := index_combine (dof_index d2i) i (sg1 a)). unfold p1. rewrite X. destruct (map_res (fun p => dof_index d2i (fst p)) (sg1 a)) as [rows|e]; cbn [bind res_map]; [|reflexivity].
  rewrite (columns_ok n _ (fun c => bincount (length (order (map fst (sg1 a)))) (combine rows c))) by exact B'. cbn [bind res_map sv_dofs sv_vecs]. rewrite nth_seq_map by exact H. reflexivity.
Qed.
Lemma consolidate2_sample order n i a : (i < n)%nat -> ok2 n a ->
  consolidate2 order (q2 i a) = res_map (fun T => mkR2 (sm_rows T) (sm_cols T) (nth i (sm_mats T) []) (nth_error (sm_x0 T) i)) (sconsolidate2 order n a).
Proof.
  intros H [_ [B C]]. unfold consolidate2, sconsolidate2. cbn [q2 g2 b2]. rewrite (fst_p2 fst), (fst_p2 snd).
  destruct (make_d2e (order (map (fun t => fst (fst t)) (sg2 a)))) as [r2i|e]; cbn [bind res_map]; [|reflexivity].
  destruct (make_d2e (order (map (fun t => snd (fst t)) (sg2 a)))) as [c2i|e]; cbn [bind res_map]; [|reflexivity].
  assert (B' := sat_snd n _ B). assert (C' := sat_snd n _ C). rewrite (np_array_ok n) by exact B'. cbn [bind].
  assert (X := index_combine (dof_index r2i) i (sb2 a)). unfold p1. rewrite X.
  destruct (map_res (fun p => dof_index r2i (fst p)) (sb2 a)) as [xd|e] eqn:Ex; cbn [bind res_map]; [|reflexivity].
  rewrite (np_array_ok n) by exact C'. cbn [bind]. rewrite index_combine2.
  match goal with |- context [map_res ?F (sg2 a)] => destruct (map_res F (sg2 a)) as [rc|e] end; cbn [bind res_map]; [|reflexivity].
  rewrite (columns_ok n _ (fun c => tab (length (order (map (fun t => fst (fst t)) (sg2 a)))) (length (order (map (fun t => snd (fst t)) (sg2 a)))) (fun k j => coo_entry (combine rc c) k j))) by exact B'. cbn [bind].
  destruct xd as [|k xd].
  - cbn [combine bind res_map sm_rows sm_cols sm_mats sm_x0]. rewrite nth_seq_map by exact H. destruct i; reflexivity.
  - rewrite (columns_ok n _ (fun c => bincount (length (order (map (fun t => fst (fst t)) (sg2 a)))) (combine (k :: xd) c))) by exact C'. cbn [bind res_map sm_rows sm_cols sm_mats sm_x0].
    rewrite nth_seq_map by exact H. f_equal. f_equal.
    rewrite (nth_error_nth' _ []) by (rewrite map_length, seq_length; exact H). rewrite nth_seq_map by exact H.
    destruct (sb2 a) as [|p l]; [discriminate|]. cbn [map prow combine]. reflexivity.
Qed.

(** ** sample sizes *)
Lemma form_size_run k : forall forms n, (1 <= n)%nat -> Forall (fun f => (1 <= snd f)%nat) forms ->
  (forall m, fold_res (fun n f => if (fst f =? k)%nat then add_size n (snd f) else Ok n) forms n = Ok m ->
     (1 <= m)%nat /\ (n = m \/ n = 1)%nat /\ (forall f, In f forms -> fst f = k -> (snd f = 1 \/ snd f = m)%nat) /\ ((m = n) \/ exists f, In f forms /\ fst f = k /\ snd f = m)) /\
  (forall e, fold_res (fun n f => if (fst f =? k)%nat then add_size n (snd f) else Ok n) forms n = Err e ->
     e = AssertionError /\ ((exists f f', In f forms /\ In f' forms /\ fst f = k /\ fst f' = k /\ (1 < snd f)%nat /\ (1 < snd f')%nat /\ snd f <> snd f') \/
        ((1 < n)%nat /\ exists f, In f forms /\ fst f = k /\ (1 < snd f)%nat /\ snd f <> n))).
Proof.
  induction forms as [|f forms IH]; intros n Hn Fo; cbn [fold_res].
  - split; [|discriminate]. intros m Q. injection Q as <-. repeat split; auto. intros f [].
  - apply Forall_cons_iff in Fo. destruct Fo as [Hf Fo]. destruct (Nat.eqb_spec (fst f) k) as [Ek|Ek].
    + unfold add_size at 1 3. destruct (Nat.ltb_spec 1 (snd f)) as [G|G].
      * destruct (Nat.eqb_spec n 1) as [->|N1].
        -- cbn [bind]. destruct (IH (snd f) Hf Fo) as [A B]. split.
           ++ intros m Q. destruct (A m Q) as [P1 [P2 [P3 P4]]]. assert (snd f = m) by lia. split; [exact P1|]. split; [right; reflexivity|]. split.
              ** intros g [<-|I] E; [right; assumption|apply P3; assumption].
              ** right. exists f. split; [left; reflexivity|]. split; assumption.
           ++ intros e Q. destruct (B e Q) as [P1 [P2|[P2 [g [Ig [Kg [Gg Ng]]]]]]]; (split; [exact P1|]); left.
              ** destruct P2 as [g [g' [I [I' P]]]]. exists g, g'. split; [right; exact I|]. split; [right; exact I'|exact P].
              ** exists f, g. split; [left; reflexivity|]. split; [right; exact Ig|]. repeat split; auto.
        -- destruct (Nat.eqb_spec n (snd f)) as [En|En]; cbn [bind].
           ++ destruct (IH n Hn Fo) as [A B]. split.
              ** intros m Q. destruct (A m Q) as [P1 [P2 [P3 P4]]]. split; [exact P1|]. split; [exact P2|]. split.
                 --- intros g [<-|I] E; [right; lia|apply P3; assumption].
                 --- destruct P4 as [P4|[g [I P]]]; [left; exact P4|right; exists g; split; [right; exact I|exact P]].
              ** intros e Q. destruct (B e Q) as [P1 [P2|[P2 [g [Ig P]]]]]; (split; [exact P1|]); [left|right].
                 --- destruct P2 as [g [g' [I [I' P]]]]. exists g, g'. split; [right; exact I|]. split; [right; exact I'|exact P].
                 --- split; [exact P2|]. exists g. split; [right; exact Ig|exact P].
           ++ split; [discriminate|]. intros e Q. injection Q as <-. split; [reflexivity|]. right. split; [lia|]. exists f. split; [left; reflexivity|]. split; [exact Ek|]. split; [exact G|lia].
      * cbn [bind]. destruct (IH n Hn Fo) as [A B]. split.
        -- intros m Q. destruct (A m Q) as [P1 [P2 [P3 P4]]]. split; [exact P1|]. split; [exact P2|]. split.
           ++ intros g [<-|I] E; [left; lia|apply P3; assumption].
           ++ destruct P4 as [P4|[g [I P]]]; [left; exact P4|right; exists g; split; [right; exact I|exact P]].
        -- intros e Q. destruct (B e Q) as [P1 [P2|[P2 [g [Ig P]]]]]; (split; [exact P1|]); [left|right].
           ++ destruct P2 as [g [g' [I [I' P]]]]. exists g, g'. split; [right; exact I|]. split; [right; exact I'|exact P].
           ++ split; [exact P2|]. exists g. split; [right; exact Ig|exact P].
    + cbn [bind]. destruct (IH n Hn Fo) as [A B]. split.
      * intros m Q. destruct (A m Q) as [P1 [P2 [P3 P4]]]. split; [exact P1|]. split; [exact P2|]. split.
        -- intros g [<-|I] E; [congruence|apply P3; assumption].
        -- destruct P4 as [P4|[g [I P]]]; [left; exact P4|right; exists g; split; [right; exact I|exact P]].
      * intros e Q. destruct (B e Q) as [P1 [P2|[P2 [g [Ig P]]]]]; (split; [exact P1|]); [left|right].
        -- destruct P2 as [g [g' [I [I' P]]]]. exists g, g'. split; [right; exact I|]. split; [right; exact I'|exact P].
        -- split; [exact P2|]. exists g. split; [right; exact Ig|exact P].
Qed.
(** The sample size of the forms of a dimension: the common size of the sampled ones,
    one if there are none, AssertionError if they differ *)
Theorem C78_sizes : forall k forms, Forall (fun f => (1 <= snd f)%nat) forms ->
  (compatible k forms -> exists n, form_size k forms = Ok n /\ (1 <= n)%nat /\ (forall f, In f forms -> fst f = k -> (snd f = 1 \/ snd f = n)%nat) /\
     (n = 1%nat \/ exists f, In f forms /\ fst f = k /\ snd f = n)) /\
  (~ compatible k forms -> form_size k forms = Err AssertionError).
Proof.
  intros k forms Fo. unfold form_size. destruct (form_size_run k forms 1%nat (le_n 1) Fo) as [A B].
  destruct (fold_res _ forms 1%nat) as [m|e].
  - destruct (A m eq_refl) as [P1 [P2 [P3 P4]]]. split.
    + intros _. exists m. repeat split; auto.
    + intros N. exfalso. apply N. intros f f' I I' K K' G G'. destruct (P3 f I K), (P3 f' I' K'); lia.
  - destruct (B e eq_refl) as [-> [[f [f' [I [I' [K [K' [G [G' N]]]]]]]]|[L _]]]; [|lia]. split; [|reflexivity]. intros C. exfalso. apply N. exact (C f f' I I' K K' G G').
Qed.
Print Assumptions C78_sizes.

Lemma init_sampled_ok n0 n1 n2 forms : okf n0 n1 n2 (init_sampled forms).
Proof.
  unfold init_sampled. split; [|split]; cbn [sf0 sf1 sf2]; intros x; destruct (existsb _ forms); try discriminate; intros Q; injection Q as <-; repeat split; constructor.
Qed.
Lemma init_sampled_q i0 i1 i2 forms : qf i0 i1 i2 (init_sampled forms) = init_forms (map fst forms).
Proof.
  unfold init_sampled, init_forms, qf. cbn [sf0 sf1 sf2].
  assert (X : forall k, existsb (Nat.eqb k) (map fst forms) = existsb (fun f => (fst f =? k)%nat) forms).
  { intros k. induction forms as [|f l IH]; [reflexivity|]. cbn [map existsb]. rewrite IH, Nat.eqb_sym. reflexivity. }
  rewrite !X. destruct (existsb (fun f => (fst f =? 0)%nat) forms), (existsb (fun f => (fst f =? 1)%nat) forms), (existsb (fun f => (fst f =? 2)%nat) forms); reflexivity.
Qed.

(** Sample i of the assembled arrays is what assembling sample i of the forms and of the
    Dirichlet values gives (also when this fails), if all linear (constant) forms
    have the same sample size.  Bilinear forms may be sampled or not. *)
Theorem C78_samples_partial : forall order forms hng dir fuel keep cells n0 n1 n2 i0 i1 i2,
  Forall (fun f => (1 <= snd f)%nat) forms -> uniform 0 forms -> uniform 1 forms ->
  form_size 0 forms = Ok n0 -> form_size 1 forms = Ok n1 -> form_size 2 forms = Ok n2 ->
  Forall (fun c => Forall2 evaluated forms (snd c)) cells ->
  Forall (fun p => (length (snd p) = 1 \/ length (snd p) = n2)%nat) dir ->
  (i0 < n0)%nat -> (i1 < n1)%nat -> (i2 < n2)%nat ->
  res_map snd (assemble order hng (sample_dir i2 dir) fuel keep (sample_cells i0 i1 i2 cells) (init_forms (map fst forms))) =
  res_map (fun p => sample_arrays i0 i1 i2 (snd p)) (run_samples order forms hng dir fuel keep cells).
Proof.
  intros order forms hng dir fuel keep cells n0 n1 n2 i0 i1 i2 Fo U0 U1 E0 E1 E2 Fc Fd H0 H1 H2. unfold run_samples. rewrite E0, E1, E2. cbn [bind].
  assert (SZ : forall k n, form_size k forms = Ok n -> forall f, In f forms -> fst f = k -> (snd f = 1 \/ snd f = n)%nat).
  { intros k n E. exact (proj1 (proj2 (proj2 (proj1 (form_size_run k forms 1%nat (le_n 1) Fo) n E)))). }
  assert (UZ : forall k n, form_size k forms = Ok n -> uniform k forms -> forall f, In f forms -> fst f = k -> snd f = n).
  { intros k n E U f I K. destruct (proj1 (form_size_run k forms 1%nat (le_n 1) Fo) n E) as [_ [_ [P3 [P4|[g [Ig [Kg Sg]]]]]]].
    - destruct (P3 f I K); lia.
    - rewrite <- Sg. apply U; assumption. }
  assert (Fits : Forall (fun c => Forall (fits n0 n1 n2) (snd c)) cells).
  { apply Forall_forall. intros c Ic. apply Forall_forall. intros l Il. rewrite Forall_forall in Fc. specialize (Fc c Ic).
    assert (Y : exists f, In f forms /\ evaluated f l).
    { clear - Fc Il. induction Fc as [|f l0 fs ls Hf Hr IH]; [destruct Il|]. destruct Il as [->|Il]; [exists f; split; [left; reflexivity|exact Hf]|].
      destruct (IH Il) as [g [A B]]. exists g. split; [right; exact A|exact B]. }
    destruct Y as [f [If Ev]]. destruct l as [v|t v|t u M]; cbn [fits evaluated] in *.
    - destruct Ev as [K L]. rewrite L. apply (UZ 0%nat n0 E0 U0 f If K).
    - destruct Ev as [K L]. rewrite <- (UZ 1%nat n1 E1 U1 f If K). exact L.
    - destruct Ev as [K [L Sh]]. split; [|exact Sh]. rewrite L. apply (SZ 2%nat n2 E2 f If K). }
  destruct (cells_sample n0 n1 n2 i0 i1 i2 H0 H1 H2 hng dir Fd fuel keep cells _ (init_sampled_ok n0 n1 n2 forms) Fits) as [E O].
  rewrite init_sampled_q in E. unfold assemble, sassemble. rewrite E.
  destruct (sassemble_cells n2 hng dir fuel keep cells (init_sampled forms)) as [af|e]; cbn [res_map bind]; [|reflexivity].
  destruct (O _ eq_refl) as [O0 [O1 O2]]. destruct af as [a0 a1 a2]. cbn [qf sf0 sf1 sf2 af0 af1 af2] in *.
  assert (X0 : exists o, opt_res (sconsolidate0 n0) a0 = Ok o /\ option_map consolidate0 (option_map (q0 i0) a0) = option_map (fun r => mkR0 (nth i0 r 0)) o).
  { destruct a0 as [a|]; cbn [opt_res option_map]; [|eexists; split; reflexivity]. destruct (consolidate0_sample n0 i0 a H0 (O0 a eq_refl)) as [r [Er V]]. rewrite Er. cbn [bind].
    eexists. split; [reflexivity|]. cbn [option_map]. rewrite V. reflexivity. }
  destruct X0 as [o0 [X0 Y0]]. rewrite X0. cbn [bind].
  assert (X1 : opt_res (consolidate1 order) (option_map (q1 i1) a1) = res_map (option_map (fun T => mkR1 (sv_dofs T) (nth i1 (sv_vecs T) []))) (opt_res (sconsolidate1 order n1) a1)).
  { destruct a1 as [a|]; [|reflexivity]. cbn [opt_res option_map]. rewrite (consolidate1_sample order n1 i1 a H1 (O1 a eq_refl)). destruct (sconsolidate1 order n1 a); reflexivity. }
  assert (X2 : opt_res (consolidate2 order) (option_map (q2 i2) a2) = res_map (option_map (fun T => mkR2 (sm_rows T) (sm_cols T) (nth i2 (sm_mats T) []) (nth_error (sm_x0 T) i2))) (opt_res (sconsolidate2 order n2) a2)).
  { destruct a2 as [a|]; [|reflexivity]. cbn [opt_res option_map]. rewrite (consolidate2_sample order n2 i2 a H2 (O2 a eq_refl)). destruct (sconsolidate2 order n2 a); reflexivity. }
  rewrite X1. destruct (opt_res (sconsolidate1 order n1) a1) as [o1|e]; cbn [res_map bind]; [|reflexivity].
  rewrite X2. destruct (opt_res (sconsolidate2 order n2) a2) as [o2|e]; cbn [res_map bind snd]; [|reflexivity].
  unfold sample_arrays. cbn [t0 t1 t2]. rewrite Y0. reflexivity.
Qed.
Print Assumptions C78_samples_partial.

(** solve(i_matrix, i_vector) solves the system of the given samples; the Dirichlet dofs
    take the values of the first sample *)
Theorem C78_solve_partial : forall solver basis hng dir im iv a,
  Forall (fun p => length (snd p) = 1%nat) dir ->
  (forall b, t1 a = Some b -> (iv < length (sv_vecs b))%nat) ->
  (forall A, t2 a = Some A -> (im < length (sm_mats A))%nat) ->
  ssolve solver basis hng dir im iv a = solve solver basis hng (sample_dir im dir) (sample_arrays 0 iv im a).
Proof.
  intros solver basis hng dir im iv a Fd Lv Lm. unfold ssolve, solve. cbn [r1 r2 sample_arrays].
  destruct (t1 a) as [b|]; cbn [option_map]; [|reflexivity]. destruct (t2 a) as [A|]; cbn [option_map m_x0 m_mat m_rows m_cols v_vec]; [|reflexivity].
  rewrite (nth_error_nth' (sm_mats A) []) by (apply Lm; reflexivity). rewrite (nth_error_nth' (sv_vecs b) []) by (apply Lv; reflexivity).
  destruct (nth_error (sm_x0 A) im) as [x0|]; [|reflexivity].
  destruct (negb _); [reflexivity|]. destruct (solver _ _ _) as [y|]; [|reflexivity].
  match goal with |- bind ?X _ = bind ?X _ => destruct X as [u1|e] end; cbn [bind]; [|reflexivity].
  assert (F' := sat_snd 1 dir Fd). rewrite (np_array_ok 1) by exact F'. cbn [bind]. rewrite (column_ok 0 1) by (assumption || lia). cbn [bind].
  replace (combine (map fst dir) (prow 0 (map snd dir))) with (sample_dir im dir); [reflexivity|].
  clear - Fd. unfold sample_dir, prow. induction dir as [|[d r] l IH]; [reflexivity|]. apply Forall_cons_iff in Fd. destruct Fd as [L Fd]. cbn [map combine fst snd]. rewrite (IH Fd). do 2 f_equal.
  unfold pick. cbn [snd] in L. rewrite L. reflexivity.
Qed.
Print Assumptions C78_solve_partial.

(** ** what goes wrong *)
Definition one_cell : list (nat * list slocal) :=
  [(0%nat, [SBilinear [0; 1]%nat [0; 1]%nat [[[1; -1]; [-1; 1]]; [[2; -2]; [-2; 2]]]; SLinear [0; 1]%nat [[1; 1]; [1; 1]]])].
(** Dirichlet values with two samples, 5 and 7: with i_matrix = 1 the solution has the
    value 5 at the Dirichlet dof, though its system was assembled with 7 *)
Definition exact_solver (M : mat) (n : nat) (b : mat) : option mat := match M with [[q]] => match b with [[r]] => Some [[r / q]] | _ => None end | _ => None end.
Theorem C78_dirichlet_refuted :
  exists p u v, run_samples Prop_Assemble.sorted_set [(2, 2); (1, 2)]%nat [] [(0%nat, [5; 7])] 50 true one_cell = Ok p /\
  ssolve exact_solver [0; 1]%nat [] [(0%nat, [5; 7])] 1 1 (snd p) = Ok u /\
  solve exact_solver [0; 1]%nat [] (sample_dir 1 [(0%nat, [5; 7])]) (sample_arrays 0 1 1 (snd p)) = Ok v /\
  Forall2 Qeq u [5; 15 # 2] /\ Forall2 Qeq v [7; 15 # 2].
Proof.
  do 3 eexists. split; [vm_compute; reflexivity|]. split; [vm_compute; reflexivity|]. split; [vm_compute; reflexivity|]. split; repeat constructor; reflexivity.
Qed.
Print Assumptions C78_dirichlet_refuted.
(** A problem with a sampled and a deterministic linear form is accepted by the
    constructor, but cannot be assembled *)
Theorem C78_mixed_refuted :
  form_size 1 [(2, 1); (1, 2); (1, 1)]%nat = Ok 2%nat /\
  run_samples Prop_Assemble.sorted_set [(2, 1); (1, 2); (1, 1)]%nat [] [] 50 true
    [(0%nat, [SBilinear [0; 1]%nat [0; 1]%nat [[[1; -1]; [-1; 2]]]; SLinear [0; 1]%nat [[1; 2]; [3; 4]]; SLinear [0; 1]%nat [[1]; [1]]])] = Err ValueError.
Proof. split; vm_compute; reflexivity. Qed.
Print Assumptions C78_mixed_refuted.

(** two bilinear forms, one sampled, and a hanging node *)
Example C78_case : exists p, run_samples Prop_Assemble.sorted_set [(2, 2); (2, 1); (1, 2)]%nat [(1%nat, [(2%nat, 1 # 2); (3%nat, 1 # 2)])] [(0%nat, [5])] 50 false
  [(0%nat, [SBilinear [0; 1]%nat [0; 1]%nat [[[1; -1]; [-1; 1]]; [[2; -2]; [-2; 2]]]; SBilinear [0; 1]%nat [0; 1]%nat [[[1; 0]; [0; 1]]]; SLinear [0; 1]%nat [[1; 3]; [2; 4]]])] = Ok p /\
  match t2 (snd p) with Some T => sm_rows T = [2; 3]%nat /\ Forall2 (Forall2 (Forall2 Qeq)) (sm_mats T) [[[1 # 2; 1 # 2]; [1 # 2; 1 # 2]]; [[3 # 4; 3 # 4]; [3 # 4; 3 # 4]]] /\
    Forall2 (Forall2 Qeq) (sm_x0 T) [[-5 # 2; -5 # 2]; [-5; -5]] | None => False end /\
  match t1 (snd p) with Some T => Forall2 (Forall2 Qeq) (sv_vecs T) [[1; 1]; [2; 2]] | None => False end.
Proof. eexists. split; [vm_compute; reflexivity|]. cbn [snd t1 t2 sm_rows sm_mats sm_x0 sv_vecs]. repeat split; repeat constructor; reflexivity. Qed.
