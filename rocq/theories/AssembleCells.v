(** * The loop over the cells *)
From Coq Require Import List Arith Bool QArith Lia.
From Verif Require Import Tree Geom Dof Solver SpecSolver SolverFacts Basis Assemble SpecAssemble AssembleFacts AssembleRun.
Import ListNotations.
Open Scope Q_scope.

Lemma total_concat : forall X Y (f : X -> Q) (g : Y -> list X) l, total f (concat (map g l)) == total (fun y => total f (g y)) l.
Proof. induction l; [reflexivity|]. cbn [map concat]. rewrite total_app, total_cons, IHl. reflexivity. Qed.
Lemma total_rev : forall X (f : X -> Q) l, total f (rev l) == total f l.
Proof. induction l; [reflexivity|]. cbn [rev]. rewrite total_app, !total_cons, total_nil, IHl. ring. Qed.

Section Cells.
Context (hng : list (nat * list (nat * Q))) (dir : list (nat * Q)).

Definition all1 (fs : list local) : list (nat * Q) := rev (concat (map entries1 fs)).
Definition all2 (fs : list local) : list (nat * nat * Q) := rev (concat (map entries2 fs)).
Definition ar0 (fs : list local) (o o' : option aform0) : Prop :=
  match o, o' with
  | Some a, Some a' => g0 a' = g0 a ++ concat (map entries0 fs)
  | None, None => ~ In 0%nat (map kind fs)
  | _, _ => False
  end.
Definition ar1 fuel (fs : list local) (o o' : option aform1) : Prop :=
  match o, o' with
  | Some a, Some a' => loop1 hng dir fuel (all1 fs) (g1 a) = Ok (g1 a')
  | None, None => ~ In 1%nat (map kind fs)
  | _, _ => False
  end.
Definition ar2 fuel (fs : list local) (o o' : option aform2) : Prop :=
  match o, o' with
  | Some a, Some a' => loop2 hng dir fuel (all2 fs) (g2 a) (b2 a) = Ok (g2 a', b2 a')
  | None, None => ~ In 2%nat (map kind fs)
  | _, _ => False
  end.
(** No cellwise data at the cell *)
Definition clean (cell : nat) (af : aforms) : Prop :=
  (forall a, af0 af = Some a -> cur cell (w0 a) = []) /\
  (forall a, af1 af = Some a -> cur cell (w1 a) = []) /\
  (forall a, af2 af = Some a -> cur cell (w2 a) = []).

Lemma cur_same : forall X c (w w' : list (nat * list X)), lookup c w' = lookup c w -> cur c w' = cur c w.
Proof. intros. unfold cur. rewrite H. reflexivity. Qed.

Lemma cell_effect : forall fuel keep af cell fs af', clean cell af ->
  assemble_cell hng dir fuel keep af (cell, fs) = Ok af' ->
  ar0 fs (af0 af) (af0 af') /\ ar1 fuel fs (af1 af) (af1 af') /\ ar2 fuel fs (af2 af) (af2 af') /\
  (forall c, c <> cell -> clean c af -> clean c af').
Proof.
  intros fuel keep af cell fs af' [C0 [C1 C2]] E. unfold assemble_cell in E. cbn [fst snd] in E.
  destruct (fold_res (fun af f => update cell af f) fs af) as [am|] eqn:U; [|discriminate]. cbn [bind] in E.
  destruct (updates_rel cell fs af am U) as [R0 [R1 R2]]. clear U.
  unfold aggregate in E.
  destruct (opt_map_res (distribute0 cell) (af0 am)) as [o0|] eqn:E0; [|discriminate]. cbn [bind] in E.
  destruct (opt_map_res (distribute1 hng dir fuel cell) (af1 am)) as [o1|] eqn:E1; [|discriminate]. cbn [bind] in E.
  destruct (opt_map_res (distribute2 hng dir fuel cell) (af2 am)) as [o2|] eqn:E2; [|discriminate]. cbn [bind] in E.
  injection E as <-.
  assert (X0 : ar0 fs (af0 af) o0 /\ forall a a' c, af0 af = Some a -> o0 = Some a' -> c <> cell -> lookup c (w0 a') = lookup c (w0 a)).
  { unfold rel0 in R0. destruct (af0 af) as [a|] eqn:Ea, (af0 am) as [am0|]; try (exfalso; exact R0).
    - destruct R0 as [G [A [B C]]]. cbn [opt_map_res] in E0. unfold distribute0 in E0. destruct (lookup cell (w0 am0)) as [l|] eqn:L; [|discriminate].
      cbn [bind] in E0. injection E0 as <-. split.
      + cbn. rewrite G. f_equal. unfold cur in A at 1. rewrite L in A. rewrite A, (C0 a eq_refl), app_nil_r. apply rev_involutive.
      + intros a0 a' c Q1 Q2 N. injection Q1 as <-. injection Q2 as <-. cbn. apply B. exact N.
    - cbn in E0. injection E0 as <-. split; [exact R0|]. intros a a' c Q. discriminate. }
  assert (X1 : ar1 fuel fs (af1 af) o1 /\ forall a a' c, af1 af = Some a -> o1 = Some a' -> c <> cell -> lookup c (w1 a') = lookup c (w1 a)).
  { unfold rel1 in R1. destruct (af1 af) as [a|] eqn:Ea, (af1 am) as [am0|]; try (exfalso; exact R1).
    - destruct R1 as [G [A [B C]]]. cbn [opt_map_res] in E1. unfold distribute1 in E1. destruct (lookup cell (w1 am0)) as [l|] eqn:L; [|discriminate].
      unfold cur in A at 1. rewrite L in A. rewrite A, (C1 a eq_refl), app_nil_r, G in E1. fold (all1 fs) in E1.
      destruct (loop1 hng dir fuel (all1 fs) (g1 a)) as [g|] eqn:EL; [|discriminate]. cbn [bind] in E1. injection E1 as <-. split.
      + cbn. exact EL.
      + intros a0 a' c Q1 Q2 N. injection Q1 as <-. injection Q2 as <-. cbn. rewrite lookup_store_other by exact N. apply B. exact N.
    - cbn in E1. injection E1 as <-. split; [exact R1|]. intros a a' c Q. discriminate. }
  assert (X2 : ar2 fuel fs (af2 af) o2 /\ forall a a' c, af2 af = Some a -> o2 = Some a' -> c <> cell -> lookup c (w2 a') = lookup c (w2 a)).
  { unfold rel2 in R2. destruct (af2 af) as [a|] eqn:Ea, (af2 am) as [am0|]; try (exfalso; exact R2).
    - destruct R2 as [G [G' [A [B C]]]]. cbn [opt_map_res] in E2. unfold distribute2 in E2. destruct (lookup cell (w2 am0)) as [l|] eqn:L; [|discriminate].
      unfold cur in A at 1. rewrite L in A. rewrite A, (C2 a eq_refl), app_nil_r, G, G' in E2. fold (all2 fs) in E2.
      destruct (loop2 hng dir fuel (all2 fs) (g2 a) (b2 a)) as [[g b]|] eqn:EL; [|discriminate]. cbn [bind] in E2. injection E2 as <-. split.
      + cbn. exact EL.
      + intros a0 a' c Q1 Q2 N. injection Q1 as <-. injection Q2 as <-. cbn. rewrite lookup_store_other by exact N. apply B. exact N.
    - cbn in E2. injection E2 as <-. split; [exact R2|]. intros a a' c Q. discriminate. }
  destruct X0 as [A0 B0], X1 as [A1 B1], X2 as [A2 B2].
  assert (P0 : forall a', o0 = Some a' -> exists a, af0 af = Some a).
  { intros a' ->. unfold ar0 in A0. destruct (af0 af); [eexists; reflexivity|destruct A0]. }
  assert (P1 : forall a', o1 = Some a' -> exists a, af1 af = Some a).
  { intros a' ->. unfold ar1 in A1. destruct (af1 af); [eexists; reflexivity|destruct A1]. }
  assert (P2 : forall a', o2 = Some a' -> exists a, af2 af = Some a).
  { intros a' ->. unfold ar2 in A2. destruct (af2 af); [eexists; reflexivity|destruct A2]. }
  destruct keep; cbn [af0 af1 af2].
  - split; [exact A0|]. split; [exact A1|]. split; [exact A2|]. intros c N [D0 [D1 D2]]. split; [|split]; cbn [af0 af1 af2]; intros a' ->.
    + destruct (P0 a' eq_refl) as [a Ea]. rewrite (cur_same _ c _ _ (B0 a a' c Ea eq_refl N)). apply D0. exact Ea.
    + destruct (P1 a' eq_refl) as [a Ea]. rewrite (cur_same _ c _ _ (B1 a a' c Ea eq_refl N)). apply D1. exact Ea.
    + destruct (P2 a' eq_refl) as [a Ea]. rewrite (cur_same _ c _ _ (B2 a a' c Ea eq_refl N)). apply D2. exact Ea.
  - split; [|split; [|split]].
    + unfold ar0 in *. destruct (af0 af), o0; exact A0.
    + unfold ar1 in *. destruct (af1 af), o1; exact A1.
    + unfold ar2 in *. destruct (af2 af), o2; exact A2.
    + intros c N [D0 [D1 D2]]. split; [|split]; cbn [af0 af1 af2]; intros a' Q.
      * destruct o0 as [x|]; [|discriminate]. injection Q as <-. cbn. destruct (P0 x eq_refl) as [a Ea].
        rewrite (cur_same _ c (w0 a)); [apply D0; exact Ea|]. rewrite lookup_remove_other by exact N. apply (B0 a x c Ea eq_refl N).
      * destruct o1 as [x|]; [|discriminate]. injection Q as <-. cbn. destruct (P1 x eq_refl) as [a Ea].
        rewrite (cur_same _ c (w1 a)); [apply D1; exact Ea|]. rewrite lookup_remove_other by exact N. apply (B1 a x c Ea eq_refl N).
      * destruct o2 as [x|]; [|discriminate]. injection Q as <-. cbn. destruct (P2 x eq_refl) as [a Ea].
        rewrite (cur_same _ c (w2 a)); [apply D2; exact Ea|]. rewrite lookup_remove_other by exact N. apply (B2 a x c Ea eq_refl N).
Qed.

(** Totals of the aggregate data *)
Definition t0 (af : aforms) : Q := match af0 af with Some a => total (fun q => q) (g0 a) | None => 0 end.
Definition t1 (v : vec) (af : aforms) : Q := match af1 af with Some a => total (lin v) (g1 a) | None => 0 end.
Definition t2 (v x : vec) (af : aforms) : Q :=
  match af2 af with Some a => total (blin v x) (g2 a) + total (lin v) (b2 a) | None => 0 end.
(** Dofs of the aggregate data *)
Definition dofs1 (af : aforms) (d : nat) : Prop := exists a, af1 af = Some a /\ In d (map fst (g1 a)).
Definition pos2 (af : aforms) (r c : nat) : Prop := exists a, af2 af = Some a /\ In (r, c) (map pos (g2 a)).
Definition bnd2 (af : aforms) (r : nat) : Prop := exists a, af2 af = Some a /\ In r (map fst (b2 a)).
(** An entry of the cells *)
Definition in1 (cells : list (nat * list local)) (d : nat) : Prop := exists c f p, In c cells /\ In f (snd c) /\ In p (entries1 f) /\ fst p = d.
Definition in2 (cells : list (nat * list local)) (r c : nat) : Prop := exists k f, In k cells /\ In f (snd k) /\ In (r, c) (map pos (entries2 f)).

Lemma kind_total : forall (g : local -> Q) k fs, (forall f, kind f <> k -> g f == 0) -> ~ In k (map kind fs) -> total g fs == 0.
Proof. intros g k fs Hg N. apply total_zero. intros f I. apply Hg. intros E. apply N. rewrite <- E. apply in_map. exact I. Qed.

Lemma cells_effect : forall fuel keep cells af af', NoDup (map fst cells) -> (forall c, In c cells -> clean (fst c) af) ->
  assemble_cells hng dir fuel keep cells af = Ok af' ->
  (t0 af' == t0 af + over_cells constant_local cells) /\
  (forall v, test_space hng dir v -> t1 v af' == t1 v af + over_cells (linear_local v) cells) /\
  (forall v x, test_space hng dir v -> trial_space hng dir x -> t2 v x af' == t2 v x af + over_cells (bilinear_local v x) cells) /\
  (forall d, dofs1 af' d <-> dofs1 af d \/ exists d0, in1 cells d0 /\ free_of hng dir d0 d) /\
  (forall r c, pos2 af' r c <-> pos2 af r c \/ exists r0 c0, in2 cells r0 c0 /\ free_of hng dir r0 r /\ free_of hng dir c0 c) /\
  (forall r, bnd2 af' r <-> bnd2 af r \/ exists r0 c0, in2 cells r0 c0 /\ free_of hng dir r0 r /\ exists c, red hng c0 c /\ lookup c dir <> None) /\
  (af0 af' = None <-> af0 af = None) /\ (af1 af' = None <-> af1 af = None) /\ (af2 af' = None <-> af2 af = None).
Proof.
  intros fuel keep. induction cells as [|[cell fs] cells IH]; intros af af' N C E.
  - cbn in E. injection E as <-. unfold over_cells. rewrite total_nil.
    split; [ring|]. split; [intros; rewrite total_nil; ring|]. split; [intros; rewrite total_nil; ring|].
    split; [|split; [|split]]; try tauto; intros.
    + split; [tauto|]. intros [A|[d0 [[c [f [p [[] _]]]] _]]]. exact A.
    + split; [tauto|]. intros [A|[r0 [c0 [[k [f [[] _]]] _]]]]. exact A.
    + split; [tauto|]. intros [A|[r0 [c0 [[k [f [[] _]]] _]]]]. exact A.
  - cbn [assemble_cells] in E. unfold assemble_cells in E. cbn [fold_res] in E.
    destruct (assemble_cell hng dir fuel keep af (cell, fs)) as [am|] eqn:U; [|discriminate]. cbn [bind] in E.
    apply NoDup_cons_iff in N. cbn [map fst] in N. destruct N as [N1 N2].
    destruct (cell_effect fuel keep af cell fs am (C _ (or_introl eq_refl)) U) as [A0 [A1 [A2 Cl]]].
    assert (C' : forall c, In c cells -> clean (fst c) am).
    { intros c I. apply Cl; [|apply C; right; exact I]. intros Q. apply N1. rewrite <- Q. apply in_map. exact I. }
    destruct (IH am af' N2 C' E) as [I0 [I1 [I2 [J1 [J2 [J3 [K0 [K1 K2]]]]]]]]. clear IH E U.
    assert (S0 : t0 am == t0 af + total constant_local fs /\ (af0 am = None <-> af0 af = None)).
    { unfold t0, ar0 in *. destruct (af0 af), (af0 am); try (exfalso; exact A0).
      - rewrite A0, total_app, total_concat. split; [|split; discriminate]. rewrite (total_ext _ (fun y => total (fun q => q) (entries0 y)) constant_local); [reflexivity|]. intros; apply entries0_total.
      - split; [|tauto]. rewrite (kind_total constant_local 0); [ring| |exact A0]. intros [q|t l|t u M] Q; try reflexivity. cbn in Q. congruence. }
    assert (S1 : (forall v, test_space hng dir v -> t1 v am == t1 v af + total (linear_local v) fs) /\ (af1 am = None <-> af1 af = None) /\
       (forall d, dofs1 am d <-> dofs1 af d \/ exists d0, in1 [(cell, fs)] d0 /\ free_of hng dir d0 d)).
    { unfold t1, ar1, dofs1 in *. destruct (af1 af) as [a|] eqn:Ea, (af1 am) as [a'|]; try (exfalso; exact A1).
      - split; [|split; [split; discriminate|]].
        + intros v T. rewrite (loop1_total hng dir v T _ _ _ _ A1). unfold all1. rewrite total_rev, total_concat.
          rewrite (total_ext _ (fun y => total (lin v) (entries1 y)) (linear_local v)); [reflexivity|]. intros; apply entries1_total.
        + intros d. assert (L := loop1_dofs hng dir _ _ _ _ A1 d). split.
          * intros [x [Q I]]. injection Q as <-. apply L in I. destruct I as [I|[p [I F]]]; [left; exists a; tauto|right].
            exists (fst p). split; [|exact F]. unfold all1 in I. apply in_rev in I. apply in_concat in I. destruct I as [l [Il I]].
            apply in_map_iff in Il. destruct Il as [f [<- If]]. exists (cell, fs), f, p. cbn. tauto.
          * intros B. exists a'. split; [reflexivity|]. apply L. destruct B as [[x [Q I]]|[d0 [[c [f [p [Ic [If [Ip Q]]]]]] F]]].
            -- injection Q as <-. left. exact I.
            -- right. exists p. rewrite Q. split; [|exact F]. unfold all1. rewrite <- in_rev. apply in_concat. exists (entries1 f).
               destruct Ic as [<-|[]]. split; [apply in_map; exact If|exact Ip].
      - split; [|split; [tauto|]].
        + intros v _. rewrite (kind_total (linear_local v) 1); [ring| |exact A1]. intros [q|t l|t u M] Q; try reflexivity. cbn in Q. congruence.
        + intros d. split; [intros [x [Q _]]; discriminate|]. intros [[x [Q _]]|[d0 [[c [f [p [Ic [If [Ip Q]]]]]] F]]]; [discriminate|].
          exfalso. apply A1. destruct Ic as [<-|[]]. apply in_map_iff. exists f. split; [|exact If]. destruct f; [destruct Ip|reflexivity|destruct Ip]. }
    assert (S2 : (forall v x, test_space hng dir v -> trial_space hng dir x -> t2 v x am == t2 v x af + total (bilinear_local v x) fs) /\ (af2 am = None <-> af2 af = None) /\
       (forall r c, pos2 am r c <-> pos2 af r c \/ exists r0 c0, in2 [(cell, fs)] r0 c0 /\ free_of hng dir r0 r /\ free_of hng dir c0 c) /\
       (forall r, bnd2 am r <-> bnd2 af r \/ exists r0 c0, in2 [(cell, fs)] r0 c0 /\ free_of hng dir r0 r /\ exists c, red hng c0 c /\ lookup c dir <> None)).
    { unfold t2, ar2, pos2, bnd2 in *. destruct (af2 af) as [a|] eqn:Ea, (af2 am) as [a'|]; try (exfalso; exact A2).
      - assert (In2 : forall t, In t (all2 fs) -> in2 [(cell, fs)] (fst (fst t)) (snd (fst t))).
        { intros t I. unfold all2 in I. apply in_rev in I. apply in_concat in I. destruct I as [l [Il I]].
          apply in_map_iff in Il. destruct Il as [f [<- If]]. exists (cell, fs), f. split; [left; reflexivity|]. split; [exact If|].
          apply in_map_iff. exists t. destruct t as [[r c] q]. split; [reflexivity|exact I]. }
        assert (In2' : forall r c, in2 [(cell, fs)] r c -> exists t, In t (all2 fs) /\ fst (fst t) = r /\ snd (fst t) = c).
        { intros r c [k [f [[<-|[]] [If Ip]]]]. apply in_map_iff in Ip. destruct Ip as [t [Q I]]. exists t. unfold pos in Q. rewrite Q. split; [|tauto].
          unfold all2. rewrite <- in_rev. apply in_concat. exists (entries2 f). split; [apply in_map; exact If|exact I]. }
        destruct (loop2_dofs hng dir _ _ _ _ _ _ A2) as [L1 L2].
        split; [|split; [split; discriminate|split]].
        + intros v x T X. rewrite (loop2_total hng dir v x T X _ _ _ _ _ _ A2). unfold all2. rewrite total_rev, total_concat.
          rewrite (total_ext _ (fun y => total (blin v x) (entries2 y)) (bilinear_local v x)); [reflexivity|]. intros; apply entries2_total.
        + intros r c. split.
          * intros [y [Q I]]. injection Q as <-. apply L1 in I. destruct I as [I|[t [I F]]]; [left; exists a; tauto|right].
            exists (fst (fst t)), (snd (fst t)). split; [apply In2; exact I|exact F].
          * intros B. exists a'. split; [reflexivity|]. apply L1. destruct B as [[y [Q I]]|[r0 [c0 [I F]]]].
            -- injection Q as <-. left. exact I.
            -- destruct (In2' r0 c0 I) as [t [It [<- <-]]]. right. exists t. tauto.
        + intros r. split.
          * intros [y [Q I]]. injection Q as <-. apply L2 in I. destruct I as [I|[t [I F]]]; [left; exists a; tauto|right].
            exists (fst (fst t)), (snd (fst t)). split; [apply In2; exact I|exact F].
          * intros B. exists a'. split; [reflexivity|]. apply L2. destruct B as [[y [Q I]]|[r0 [c0 [I F]]]].
            -- injection Q as <-. left. exact I.
            -- destruct (In2' r0 c0 I) as [t [It [<- <-]]]. right. exists t. tauto.
      - assert (No : forall r c, ~ in2 [(cell, fs)] r c).
        { intros r c [k [f [[<-|[]] [If Ip]]]]. apply A2. apply in_map_iff. exists f. split; [|exact If]. destruct f; [destruct Ip|destruct Ip|reflexivity]. }
        split; [|split; [tauto|split]].
        + intros v x _ _. rewrite (kind_total (bilinear_local v x) 2); [ring| |exact A2]. intros [q|t l|t u M] Q; try reflexivity. cbn in Q. congruence.
        + intros r c. split; [intros [y [Q _]]; discriminate|]. intros [[y [Q _]]|[r0 [c0 [I _]]]]; [discriminate|]. exfalso. exact (No _ _ I).
        + intros r. split; [intros [y [Q _]]; discriminate|]. intros [[y [Q _]]|[r0 [c0 [I _]]]]; [discriminate|]. exfalso. exact (No _ _ I). }
    destruct S0 as [S0 S0'], S1 as [S1 [S1' S1d]], S2 as [S2 [S2' [S2p S2b]]].
    assert (U1 : forall d, in1 ((cell, fs) :: cells) d <-> in1 [(cell, fs)] d \/ in1 cells d).
    { intros d. split.
      - intros [c [f [p [[<-|Ic] R]]]]; [left; exists (cell, fs), f, p; split; [left; reflexivity|exact R]|right; exists c, f, p; tauto].
      - intros [[c [f [p [[<-|[]] R]]]]|[c [f [p [Ic R]]]]]; [exists (cell, fs), f, p; split; [left; reflexivity|exact R]|exists c, f, p; split; [right; exact Ic|exact R]]. }
    assert (U2 : forall r c, in2 ((cell, fs) :: cells) r c <-> in2 [(cell, fs)] r c \/ in2 cells r c).
    { intros r c. split.
      - intros [k [f [[<-|Ic] R]]]; [left; exists (cell, fs), f; split; [left; reflexivity|exact R]|right; exists k, f; tauto].
      - intros [[k [f [[<-|[]] R]]]|[k [f [Ic R]]]]; [exists (cell, fs), f; split; [left; reflexivity|exact R]|exists k, f; split; [right; exact Ic|exact R]]. }
    unfold over_cells. rewrite total_cons. cbn [snd].
    split; [rewrite I0, S0; unfold over_cells; ring|].
    split; [intros v T; rewrite total_cons, (I1 v T), (S1 v T); unfold over_cells; cbn [snd]; ring|].
    split; [intros v x T X; rewrite total_cons, (I2 v x T X), (S2 v x T X); unfold over_cells; cbn [snd]; ring|].
    split; [intros d; rewrite J1, S1d|split; [intros r c; rewrite J2, S2p|split; [intros r; rewrite J3, S2b|]]].
    + split.
      * intros [[A|[d0 [I F]]]|[d0 [I F]]]; [tauto| |]; right; exists d0; rewrite U1; tauto.
      * intros [A|[d0 [I F]]]; [tauto|]. rewrite U1 in I. destruct I as [I|I]; [left; right|right]; exists d0; tauto.
    + split.
      * intros [[A|[r0 [c0 [I F]]]]|[r0 [c0 [I F]]]]; [tauto| |]; right; exists r0, c0; rewrite U2; tauto.
      * intros [A|[r0 [c0 [I F]]]]; [tauto|]. rewrite U2 in I. destruct I as [I|I]; [left; right|right]; exists r0, c0; tauto.
    + split.
      * intros [[A|[r0 [c0 [I F]]]]|[r0 [c0 [I F]]]]; [tauto| |]; right; exists r0, c0; rewrite U2; tauto.
      * intros [A|[r0 [c0 [I F]]]]; [tauto|]. rewrite U2 in I. destruct I as [I|I]; [left; right|right]; exists r0, c0; tauto.
    + split; [rewrite K0; exact S0'|]. split; [rewrite K1; exact S1'|rewrite K2; exact S2'].
Qed.

(** The loop ends *)
Lemma cells_ends : acyclic hng -> forall keep cells af, Forall (fun c => Forall form_shape (snd c)) cells ->
  NoDup (map fst cells) -> (forall c, In c cells -> clean (fst c) af) ->
  (forall c k, In c cells -> (k < 3)%nat -> (In k (map kind (snd c)) <-> match k with 0%nat => af0 af <> None | 1%nat => af1 af <> None | _ => af2 af <> None end)) ->
  exists N, forall fuel, (N <= fuel)%nat -> exists af', assemble_cells hng dir fuel keep cells af = Ok af'.
Proof.
  intros Ac keep cells af Fs. 
  assert (Step : forall af cell fs, clean cell af -> Forall form_shape fs ->
    (forall k, (k < 3)%nat -> (In k (map kind fs) <-> match k with 0%nat => af0 af <> None | 1%nat => af1 af <> None | _ => af2 af <> None end)) ->
    forall fuel, (forall out, exists o, loop1 hng dir fuel (all1 fs) out = Ok o) -> (forall out bnd, exists o, loop2 hng dir fuel (all2 fs) out bnd = Ok o) ->
    exists af', assemble_cell hng dir fuel keep af (cell, fs) = Ok af').
  { clear - Ac. intros af cell fs [C0 [C1 C2]] Fs K fuel L1 L2. unfold assemble_cell. cbn [fst snd].
    destruct (updates_ok cell fs af Fs) as [am U]; [apply (K 0%nat); lia|apply (K 1%nat); lia|apply (K 2%nat); lia|].
    destruct (updates_rel cell fs af am U) as [R0 [R1 R2]].
    change (fold_res (fun af f => update cell af f) fs af) with (fold_res (update cell) fs af). rewrite U. cbn [bind].
    unfold aggregate.
    assert (Q0 : exists o, opt_map_res (distribute0 cell) (af0 am) = Ok o).
    { unfold rel0 in R0. destruct (af0 am) as [a'|]; [|eexists; reflexivity]. destruct (af0 af) as [a|] eqn:Ea; [|destruct R0].
      destruct R0 as [_ [_ [_ C]]]. cbn. unfold distribute0. destruct (lookup cell (w0 a')); [eexists; reflexivity|].
      exfalso. apply C; [left|reflexivity]. apply (K 0%nat); [lia|discriminate]. }
    assert (Q1 : exists o, opt_map_res (distribute1 hng dir fuel cell) (af1 am) = Ok o).
    { unfold rel1 in R1. destruct (af1 am) as [a'|]; [|eexists; reflexivity]. destruct (af1 af) as [a|] eqn:Ea; [|destruct R1].
      destruct R1 as [_ [A [_ C]]]. cbn. unfold distribute1. destruct (lookup cell (w1 a')) as [l|] eqn:L.
      - unfold cur in A at 1. rewrite L, (C1 a eq_refl), app_nil_r in A. rewrite A. fold (all1 fs).
        destruct (L1 (g1 a')) as [o Eo]. rewrite Eo. eexists. reflexivity.
      - exfalso. apply C; [left|reflexivity]. apply (K 1%nat); [lia|discriminate]. }
    assert (Q2 : exists o, opt_map_res (distribute2 hng dir fuel cell) (af2 am) = Ok o).
    { unfold rel2 in R2. destruct (af2 am) as [a'|]; [|eexists; reflexivity]. destruct (af2 af) as [a|] eqn:Ea; [|destruct R2].
      destruct R2 as [_ [_ [A [_ C]]]]. cbn. unfold distribute2. destruct (lookup cell (w2 a')) as [l|] eqn:L.
      - unfold cur in A at 1. rewrite L, (C2 a eq_refl), app_nil_r in A. rewrite A. fold (all2 fs).
        destruct (L2 (g2 a') (b2 a')) as [o Eo]. rewrite Eo. eexists. reflexivity.
      - exfalso. apply C; [left|reflexivity]. apply (K 2%nat); [lia|discriminate]. }
    destruct Q0 as [o0 ->], Q1 as [o1 ->], Q2 as [o2 ->]. cbn [bind]. eexists. reflexivity. }
  revert af. induction cells as [|[cell fs] cells IH]; intros af N C K.
  - exists 0%nat. intros. eexists. reflexivity.
  - inversion Fs; subst. cbn [snd] in *. apply NoDup_cons_iff in N. cbn [map fst] in N. destruct N as [N1 N2].
    destruct (loop1_ends hng dir Ac (all1 fs)) as [M1 L1]. destruct (loop2_ends hng dir Ac (all2 fs)) as [M2 L2].
    set (R := fun am => (forall c, In c cells -> clean (fst c) am) /\ (af0 am = None <-> af0 af = None) /\ (af1 am = None <-> af1 af = None) /\ (af2 am = None <-> af2 af = None)).
    assert (Rs : forall fuel am, assemble_cell hng dir fuel keep af (cell, fs) = Ok am -> R am).
    { intros fuel am U. destruct (cell_effect fuel keep af cell fs am (C _ (or_introl eq_refl)) U) as [A0 [A1 [A2 Cl]]]. unfold R. split; [|split; [|split]].
      - intros c I. apply Cl; [|apply C; right; exact I]. intros Q. apply N1. rewrite <- Q. apply in_map. exact I.
      - unfold ar0 in A0. destruct (af0 af), (af0 am); try (exfalso; exact A0); [split; discriminate|tauto].
      - unfold ar1 in A1. destruct (af1 af), (af1 am); try (exfalso; exact A1); [split; discriminate|tauto].
      - unfold ar2 in A2. destruct (af2 af), (af2 am); try (exfalso; exact A2); [split; discriminate|tauto]. }
    (* the bound does not depend on the state: use any state with the same presence *)
    assert (G : exists N, forall am, R am -> forall fuel, (N <= fuel)%nat -> exists af', assemble_cells hng dir fuel keep cells am = Ok af').
    { clear - Step H2 N2 K Ac. assert (K' : forall c k, In c cells -> (k < 3)%nat -> (In k (map kind (snd c)) <-> match k with 0%nat => af0 af <> None | 1%nat => af1 af <> None | _ => af2 af <> None end)).
      { intros c k I. apply K. right. exact I. }
      clear K. subst R. revert af K'. induction cells as [|[c1 f1] l IHl]; intros af K'.
      - exists 0%nat. intros. eexists. reflexivity.
      - inversion H2; subst. cbn [snd] in *. apply NoDup_cons_iff in N2. cbn [map fst] in N2. destruct N2 as [M1 M2].
        destruct (IHl M2 H3 af) as [N B]. { intros c k I. apply K'. right. exact I. }
        destruct (loop1_ends hng dir Ac (all1 f1)) as [P1 L1]. destruct (loop2_ends hng dir Ac (all2 f1)) as [P2 L2].
        exists (N + P1 + P2)%nat. intros am [Cl [Z0 [Z1 Z2]]] fuel Lf. unfold assemble_cells. cbn [fold_res].
        destruct (Step am c1 f1) with (fuel := fuel) as [an E].
        + apply (Cl (c1, f1)). left. reflexivity.
        + assumption.
        + intros k Lk. rewrite (K' (c1, f1) k (or_introl eq_refl) Lk). destruct k as [|[|k]]; tauto.
        + intros out. apply L1. lia.
        + intros out bnd. apply L2. lia.
        + rewrite E. cbn [bind]. apply B; [|lia].
          destruct (cell_effect fuel keep am c1 f1 an (Cl (c1, f1) (or_introl eq_refl)) E) as [A0 [A1 [A2 Cl']]]. split; [|split; [|split]].
          * intros c I. apply Cl'; [|apply Cl; right; exact I]. intros Q. apply M1. rewrite <- Q. apply in_map. exact I.
          * rewrite <- Z0. unfold ar0 in A0. destruct (af0 am), (af0 an); try (exfalso; exact A0); [split; discriminate|tauto].
          * rewrite <- Z1. unfold ar1 in A1. destruct (af1 am), (af1 an); try (exfalso; exact A1); [split; discriminate|tauto].
          * rewrite <- Z2. unfold ar2 in A2. destruct (af2 am), (af2 an); try (exfalso; exact A2); [split; discriminate|tauto]. }
    destruct G as [N G]. exists (N + M1 + M2)%nat. intros fuel Lf. unfold assemble_cells. cbn [fold_res].
    destruct (Step af cell fs) with (fuel := fuel) as [am E].
    + apply (C (cell, fs)). left. reflexivity.
    + assumption.
    + intros k Lk. apply (K (cell, fs) k (or_introl eq_refl) Lk).
    + intros out. apply L1. lia.
    + intros out bnd. apply L2. lia.
    + rewrite E. cbn [bind]. apply G; [apply (Rs fuel); exact E|lia].
Qed.
End Cells.
