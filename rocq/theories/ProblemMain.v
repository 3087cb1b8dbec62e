(** * The local forms of a problem are the quadrature of its terms (facts for C82) *)
From Coq Require Import List Arith Bool Lia QArith Lqa.
From Verif Require Import Tree Forest SpecForest Geom SpecGeom Fem SpecFem ShapeFacts Dof SpecDof DofVert SpecDofVert Basis Solver SolverFacts Nodal NodalFacts Nodal1 SpecNodal
  Nodal1Facts Nodal1Main Nodal1Interp Nodal1More Region1 Assemble SpecAssemble Kernel SpecKernel Dirichlet1 Prop_Kernel SpecProblem ProblemFacts.
Import ListNotations.
Open Scope Q_scope.

Section Use.
Context {periodic : bool} {a b : Q} {e : elem} {f : forest itv} {sf : option flag} {s : dofs} {dv : dverts} {L : list nat} {B : list (option nat) * list nat}.
Context (U : in_use periodic a b e f sf s dv L B) (lab : Q -> flag -> bool) (bases : list deriv) (rule : list Q * list Q) (RO : rule_ok rule).
Notation M := (mkM1 f periodic lab).

Lemma leaf_dofs p n : fget f p = Some n -> is_leaf_of sf n ->
  exists ds, cell_dofs1 s p = Some ds /\ length ds = n_dofs D1 e /\ (forall k d, nth_error ds k = Some d <-> dof_at s p k d) /\ forall d, In d ds -> In d L.
Proof.
  intros E Ln. assert (Sq : sub_leaf f sf p) by (exists n; auto). destruct (use_filled U p (leaf_sub p Sq)) as [Fq Iq]. destruct (cell_dofs_filled s p _ Fq Iq) as [ds [Ed [Ld [_ Hk]]]].
  exists ds. split; [exact Ed|]. split; [exact Ld|]. split; [exact Hk|]. intros d I. apply In_nth_error in I. destruct I as [k I]. apply (use_L U). exists p, k. split; [exact Sq|]. apply Hk. exact I.
Qed.
Lemma value_x v der p x x' y : x == x' -> value_in e f s v der p x y -> value_in e f s v der p x' y.
Proof.
  intros Ex [c [Lc Vc]]. exists c. split; [exact Lc|]. destruct (poly_der der c (degree e) (proj1 Lc) (degree_3 e)) as [c' [_ P']].
  apply (poly_value_proper der c x' (poly c' x') y); [|apply P'].
  rewrite <- (poly_proper c' _ _ Ex). apply (poly_value_fun der c c x); [intro; reflexivity|apply P'|exact Vc].
Qed.
Lemma rep_value v V p x y der : represents e f sf s v V -> leaf_around f sf x p -> value_in e f s v der p x y -> y == V der p x.
Proof.
  intros R H Vy. assert (Sq : sub_leaf f sf p) by (destruct H as [m [Em [Lm _]]]; exists m; auto). exact (value_in_unique U v der p x y _ Sq Vy (R der p x H)).
Qed.
Lemma rep_proper v V p x x' der : represents e f sf s v V -> leaf_around f sf x p -> x == x' -> V der p x == V der p x'.
Proof.
  intros R H E. apply (rep_value v V p x' (V der p x) der R); [|apply (value_x v der p x x' _ E); apply R; exact H].
  destruct H as [m [Em [Lm X]]]. exists m. split; auto. split; auto. lra.
Qed.
Lemma unit_in (d : itv) r : fst d < snd d -> 0 <= r <= 1 -> fst d <= imap d r <= snd d.
Proof. intros W R. unfold imap. split; nra. Qed.
Lemma row_value v p n ds der r row : fget f p = Some n -> is_leaf_of sf n -> cell_dofs1 s p = Some ds -> 0 <= r <= 1 -> shape_row e (n_data n) der r = Ok row ->
  value_in e f s v der p (imap (n_data n) r) (sum (n_dofs D1 e) (fun k => nth k row 0 * v (nth k ds 0%nat))).
Proof.
  intros E Ln Ed R Er. destruct (leaf_dofs p n E Ln) as [ds' [Ed' [Ld [Hk _]]]]. rewrite Ed in Ed'. injection Ed' as <-. destruct (use_leaf_width U p n E Ln) as [W _].
  pose proof (unit_in (n_data n) r W R) as X.
  destruct (shape_row_ok e (n_data n) der r W R) as [row' [Er' [Lr Hr]]]. rewrite Er in Er'. injection Er' as <-.
  destruct (shapes_row e f der p n _ E W X) as [row2 [Er2 [Lr2 Hr2]]].
  assert (Sq : sub_leaf f sf p) by (exists n; auto).
  eapply (value_in_proper U v v der p _ _ _ (fun d _ => Qeq_refl (v d)) Sq); [|exact (cell_value e f s v der p n ds row2 _ E W X Ld Hk Er2)].
  rewrite (sum_nth row2 ds v (n_dofs D1 e) Lr2 Ld), sum_fold. apply sumQ_map_ext. intros k I. apply in_seq in I. rewrite Hr2, Hr by lia. reflexivity.
Qed.
(** a finite element function in a region *)
Lemma region_value v V p r n ds refs i g : represents e f sf s v V -> fget f p = Some n -> is_leaf_of sf n -> cell_dofs1 s p = Some ds -> (forall x, In x refs -> 0 <= x <= 1) ->
  r_x r = map (imap (n_data n)) refs -> shape_tables e bases (n_data n) refs = Ok (r_phi r) -> (i < length bases)%nat -> (g < length refs)%nat ->
  sum (n_dofs D1 e) (fun k => shape_value i r g k * v (nth k ds 0%nat)) == V (nth i bases V0) p (nth g (r_x r) 0).
Proof.
  intros Rp E Ln Ed R Ex Et Li Lg. destruct (tables_get e bases (n_data n) refs _ Et) as [_ TG]. destruct (TG i Li) as [t [Gt Ft]].
  rewrite Ex. rewrite (nth_map' (imap (n_data n)) refs g 0 0) by exact Lg.
  pose proof (f2_nth' _ _ _ g 0 [] Ft Lg) as Er. cbn beta in Er. assert (R0 : 0 <= nth g refs 0 <= 1) by (apply R, nth_In, Lg).
  pose proof (row_value v p n ds _ _ _ E Ln Ed R0 Er) as RV. destruct (use_leaf_width U p n E Ln) as [W _].
  rewrite <- (rep_value v V p _ _ _ Rp ltac:(exists n; split; [exact E|split; [exact Ln|apply (unit_in _ _ W R0)]]) RV).
  apply sum_ext. intros k _. unfold shape_value. rewrite Gt. reflexivity.
Qed.

(** the regions of a form *)
Definition good_region (p : path) (n : node itv) (ds : list nat) (r : region Q) : Prop :=
  length (r_w r) = length (r_x r) /\ exists refs, (forall x, In x refs -> 0 <= x <= 1) /\ r_x r = map (imap (n_data n)) refs /\
    shape_tables e bases (n_data n) refs = Ok (r_phi r) /\ r_dofs r = map (fun i => (i, ds)) (seq 0 (length bases)).
Lemma good_ok p n ds r : good_region p n ds r -> region_ok r.
Proof.
  intros [H [refs [_ [Ex [Et _]]]]]. split; [exact H|]. destruct (tables_get e bases _ _ _ Et) as [F _]. rewrite Ex, map_length. exact F.
Qed.
Lemma good_at p n ds r : fget f p = Some n -> is_leaf_of sf n -> cell_dofs1 s p = Some ds -> good_region p n ds r -> region_at e M sf s bases p r.
Proof. intros E Ln Ed [_ [refs [H1 [H2 [H3 H4]]]]]. exists n, ds, refs. auto 10. Qed.
(** all regions of a form on a leaf, and quadrature over them *)
Lemma regions_ok fm p n ds : fget f p = Some n -> is_leaf_of sf n -> fm_dmu fm <> Ds ->
  exists rs, form_regions e M bases rule fm p (n_data n) ds = Ok rs /\ Forall (good_region p n ds) rs /\
    forall h fn, (forall x y, leaf_around f sf x p -> x == y -> h x == h y) ->
      (forall r g, In r rs -> (g < length (r_x r))%nat -> fn r g == h (nth g (r_x r) 0)) ->
      quadrature rs fn == integral M rule (fm_dmu fm) (fm_flag fm) p h.
Proof.
  intros E Ln Nd. destruct (use_leaf_width U p n E Ln) as [W _]. unfold form_regions, integral. cbn [m1_cells m1_lab]. rewrite E. destruct (n_data n) as [l r] eqn:ED. cbn [fst snd] in *.
  destruct RO as [RL RU].
  assert (VR : forall x, 0 <= x <= 1 -> exists rg, vertex_region e bases (l, r) ds x = Ok rg /\ good_region p n ds rg /\ r_x rg = [imap (l, r) x] /\ r_w rg = [1]).
  { intros x X. unfold vertex_region. assert (R1 : forall y, In y [x] -> 0 <= y <= 1) by (intros y [<-|[]]; exact X). destruct (tables_ok e bases (l, r) [x] W R1) as [phi ET]. rewrite ET. cbn [bind].
    eexists. split; [reflexivity|]. split; [|split; reflexivity]. split; [reflexivity|]. exists [x]. rewrite ED. split; [exact R1|]. split; [reflexivity|]. split; [exact ET|reflexivity]. }
  assert (Q1 : forall rg x h fn, r_x rg = [imap (l, r) x] -> r_w rg = [1] -> (forall g, (g < length (r_x rg))%nat -> fn rg g == h (nth g (r_x rg) 0)) ->
    qsum (map (fun g => nth g (r_w rg) 0 * fn rg g) (seq 0 (length (r_w rg)))) == h (imap (l, r) x)).
  { intros rg x h fn Hx Hw H. rewrite Hw. cbn. rewrite (H 0%nat) by (rewrite Hx; cbn; lia). rewrite Hx. cbn [nth]. ring. }
  assert (A0 : leaf_around f sf (imap (l, r) 0) p) by (exists n; rewrite ED; cbn; split; [exact E|split; [exact Ln|unfold imap; cbn [fst snd]; split; lra]]).
  assert (A1 : leaf_around f sf (imap (l, r) 1) p) by (exists n; rewrite ED; cbn; split; [exact E|split; [exact Ln|unfold imap; cbn [fst snd]; split; lra]]).
  assert (E0 : imap (l, r) 0 == l) by (unfold imap; cbn [fst snd]; ring). assert (E1 : imap (l, r) 1 == r) by (unfold imap; cbn [fst snd]; ring).
  destruct (fm_dmu fm); [|congruence|].
  - change (match fm_flag fm with None => true | Some g => marked_at f p g end) with (has (fm_flag fm) (marked_at f p)). destruct (has (fm_flag fm) (marked_at f p)).
    + unfold cell_region. destruct (tables_ok e bases (l, r) (fst rule) W RU) as [phi ET]. rewrite ET. cbn [bind]. eexists. split; [reflexivity|]. split.
      * constructor; [|constructor]. split; [cbn; rewrite !map_length; symmetry; exact RL|]. exists (fst rule). rewrite ED. split; [exact RU|]. split; [reflexivity|]. split; [exact ET|reflexivity].
      * intros h fn Ph Hf. unfold quadrature. cbn [map fold_right r_w]. rewrite Qplus_0_r. unfold total.
        assert (Hf' := fun g => Hf _ g (or_introl eq_refl)). clear Hf. cbn [r_x] in Hf'. rewrite map_length in Hf' |- *.
        set (rg := {| r_x := _; r_w := _; r_phi := _; r_dofs := _ |}) in *. clearbody rg.
        rewrite (map_as_seq (fun xw => snd xw * (r - l) * h (l + (r - l) * fst xw)) (combine (fst rule) (snd rule)) (0, 0)). rewrite combine_length, RL, Nat.min_id.
        apply qsum_ext. intros g I. apply in_seq in I. rewrite (Hf' g) by lia. rewrite !(nth_map' _ _ g 0 0) by lia. rewrite combine_nth' by lia. cbn [fst snd]. unfold ijac_r2p, imap. cbn [fst snd]. reflexivity.
    + exists []. split; [reflexivity|]. split; [constructor|]. intros. reflexivity.
  - destruct (VR 0 ltac:(lra)) as [r0 [V0 [G0 [X0 W0]]]]. destruct (VR 1 ltac:(lra)) as [r1 [V1' [G1 [X1 W1]]]].
    cbn [filter fst].
    change (match fm_flag fm with None => true | Some g => lab (Qred l) g end) with (has (fm_flag fm) (lab (Qred l))).
    change (match fm_flag fm with None => true | Some g => lab (Qred r) g end) with (has (fm_flag fm) (lab (Qred r))).
    destruct (has (fm_flag fm) (lab (Qred l))), (has (fm_flag fm) (lab (Qred r))); cbn [map_res snd]; rewrite ?V0, ?V1'; cbn [bind]; (eexists; split; [reflexivity|]; split; [auto|]); intros h fn Ph Hf.
    + rewrite !quadrature_cons. rewrite (Q1 r0 0 h fn X0 W0) by (intros g; apply Hf; left; auto). rewrite (Q1 r1 1 h fn X1 W1) by (intros g; apply Hf; right; left; auto).
      rewrite (Ph _ _ A0 E0), (Ph _ _ A1 E1). unfold quadrature. cbn. ring.
    + rewrite !quadrature_cons. rewrite (Q1 r0 0 h fn X0 W0) by (intros g; apply Hf; left; auto). rewrite (Ph _ _ A0 E0). unfold quadrature. cbn. ring.
    + rewrite !quadrature_cons. rewrite (Q1 r1 1 h fn X1 W1) by (intros g; apply Hf; left; auto). rewrite (Ph _ _ A1 E1). unfold quadrature. cbn. ring.
    + unfold quadrature. cbn. ring.
Qed.

(** the kernel in a region *)
Lemma kernel_in_region k kf p n ds r : kernel_is e M sf s bases k kf -> fget f p = Some n -> is_leaf_of sf n -> cell_dofs1 s p = Some ds -> good_region p n ds r ->
  (exists v, wker k r = Ok v /\ length v = length (r_w r)) /\ forall g, (g < length (r_x r))%nat -> kernel_value k r g 0 == kf p (nth g (r_x r) 0).
Proof.
  intros [[fs Mk] [K1 [_ K]]] E Ln Ed G. destruct (K p r (good_at p n ds r E Ln Ed G)) as [V [EV HV]].
  pose proof (good_ok p n ds r G) as RG. destruct RG as [R1 R2].
  assert (PP : forall q, Some (r_phi r) = Some q -> Forall (fun z => length (snd z) = length (r_x r)) q) by (intros q Q; injection Q as <-; exact R2).
  destruct (C80_eval fs k (r_x r) (Some (r_phi r)) (Some (r_dofs r)) Mk PP) as [T1 T2]. destruct (T2 V EV) as [vs F]. destruct (T1 vs F) as [V' [E' [[V1 V2] V3]]]. assert (V' = V) by congruence. subst V'.
  assert (EW : wker k r = Ok (weighted (r_w r) V)) by (unfold wker; rewrite EV; cbn [bind]; rewrite V1, R1, Nat.eqb_refl; reflexivity).
  split; [exists (weighted (r_w r) V); split; [exact EW|rewrite weighted_len; congruence]|].
  intros g Hg. rewrite <- (HV g Hg). rewrite (V3 g 0%nat Hg) by lia. unfold kernel_value.
  destruct (made_inv fs k Mk) as [Kf _]. rewrite Kf. clear - F.
  assert (Q : map (fun fd => function_value fd r g 0) (combine fs (k_d k)) = map (fun v => sample_at v g 0) vs).
  { induction F as [|fd w l l' H F IH]; [reflexivity|]. cbn [map]. rewrite IH. f_equal. unfold function_value. rewrite H. reflexivity. }
  rewrite Q. reflexivity.
Qed.
Lemma fold_res_total {A C} (st : A -> C -> res A) l : (forall acc c, In c l -> exists acc', st acc c = Ok acc') -> forall acc, exists acc', fold_res st l acc = Ok acc'.
Proof.
  induction l as [|c l IH]; intros H acc; [exists acc; reflexivity|]. cbn. destruct (H acc c (or_introl eq_refl)) as [a1 E]. rewrite E. cbn. apply IH. intros a2 c' I. apply H. right. exact I.
Qed.
Lemma table_in_region p n ds r i : good_region p n ds r -> (i < length bases)%nat -> exists t, get i (r_phi r) = Ok t /\ length t = length (r_w r).
Proof.
  intros G Li. pose proof (good_ok p n ds r G) as RG. destruct G as [_ [refs [_ [_ [Et _]]]]]. destruct (tables_get e bases _ _ _ Et) as [_ TG]. destruct (TG i Li) as [t [Gt _]].
  exists t. split; [exact Gt|]. apply (get_len r i t RG Gt).
Qed.
Lemma tab_entry r c h i j : (i < r)%nat -> (j < c)%nat -> entry (tab r c h) i j = h i j.
Proof. intros Hi Hj. unfold entry, tab. rewrite (nth_seq_map _ r i []) by exact Hi. rewrite (nth_seq_map _ c j 0) by exact Hj. reflexivity. Qed.
Lemma tab_shape r c h : shape r c (tab r c h) = true.
Proof.
  unfold shape, tab. rewrite map_length, seq_length, Nat.eqb_refl. cbn. apply forallb_forall. intros x I. apply in_map_iff in I. destruct I as [i [<- _]]. rewrite map_length, seq_length. apply Nat.eqb_refl.
Qed.
Definition good_local (ds : list nat) (fm : form1) (loc : local) : Prop :=
  kind loc = form_dim fm /\ form_shape loc /\ match loc with Constant _ => True | Linear t _ => t = ds | Bilinear t u _ => t = ds /\ u = ds end.
Lemma local_ok t p n ds : term_ok e M sf s bases t -> fget f p = Some n -> is_leaf_of sf n -> cell_dofs1 s p = Some ds ->
  exists loc, local_form e M bases rule (fst t) p (n_data n) ds = Ok loc /\ good_local ds (fst t) loc /\
    (forall v u V W, represents e f sf s v V -> represents e f sf s u W -> bilinear_local v u loc == match fm_test (fst t), fm_trial (fst t) with
      | Some i, Some j => integral M rule (fm_dmu (fst t)) (fm_flag (fst t)) p (fun x => snd t p x * V (der_of bases i) p x * W (der_of bases j) p x)
      | _, _ => 0 end) /\
    (forall v V, represents e f sf s v V -> linear_local v loc == match fm_test (fst t), fm_trial (fst t) with
      | Some i, None => integral M rule (fm_dmu (fst t)) (fm_flag (fst t)) p (fun x => snd t p x * V (der_of bases i) p x)
      | _, _ => 0 end) /\
    constant_local loc == match fm_test (fst t) with
      | None => integral M rule (fm_dmu (fst t)) (fm_flag (fst t)) p (fun x => snd t p x)
      | _ => 0 end.
Proof.
  destruct t as [fm kf]. cbn [fst snd]. intros [Kt [Nd [Ti Tj]]] E Ln Ed. cbn [fst snd] in *. destruct (leaf_dofs p n E Ln) as [ds' [Ed' [Ld _]]]. rewrite Ed in Ed'. injection Ed' as <-.
  destruct (regions_ok fm p n ds E Ln Nd) as [rs [ER [GR QR]]]. unfold local_form. rewrite ER. cbn [bind]. set (k := fm_kernel fm) in *. pose proof Kt as [[fs Mk] [K1 [Kp _]]].
  assert (RK : Forall region_ok rs) by (eapply Forall_impl; [|exact GR]; intros r; apply good_ok).
  rewrite Forall_forall in GR.
  assert (WK : forall r, In r rs -> exists v, wker k r = Ok v /\ length v = length (r_w r)) by (intros r I; apply (kernel_in_region k kf p n ds r Kt E Ln Ed (GR r I))).
  assert (KV : forall r g, In r rs -> (g < length (r_w r))%nat -> kernel_value k r g 0 == kf p (nth g (r_x r) 0)).
  { intros r g I Hg. apply (kernel_in_region k kf p n ds r Kt E Ln Ed (GR r I)). rewrite <- (proj1 (GR r I)). exact Hg. }
  assert (RV : forall v V i r g, represents e f sf s v V -> (i < length bases)%nat -> In r rs -> (g < length (r_w r))%nat ->
     sum (n_dofs D1 e) (fun a0 => shape_value i r g a0 * v (nth a0 ds 0%nat)) == V (der_of bases i) p (nth g (r_x r) 0)).
  { intros v V i r g Rp Hi I Hg. destruct (GR r I) as [LW [refs [R1 [R2 [R3 R4]]]]]. unfold der_of. apply (region_value v V p r n ds refs i g Rp E Ln Ed R1 R2 R3 Hi). rewrite LW, R2, map_length in Hg. exact Hg. }
  assert (LX : forall r g, In r rs -> (g < length (r_x r))%nat -> (g < length (r_w r))%nat) by (intros r g I Hg; rewrite (proj1 (GR r I)); exact Hg).
  unfold form_dim, good_local. destruct (fm_test fm) as [i|] eqn:Et; [|].
  - specialize (Ti i eq_refl). destruct (fm_trial fm) as [j|] eqn:Eu.
    + specialize (Tj j eq_refl).
      assert (EX : exists l, eval_bilinear k i j (n_dofs D1 e) (n_dofs D1 e) rs = Ok l).
      { unfold eval_bilinear. apply fold_res_total. intros acc r I. destruct (WK r I) as [v [Ev Lv]]. destruct (table_in_region p n ds r i (GR r I) Ti) as [t1 [G1 L1]]. destruct (table_in_region p n ds r j (GR r I) Tj) as [t2 [G2 L2]].
        rewrite Ev. cbn [bind]. rewrite G1. cbn [bind]. rewrite G2. cbn [bind]. replace (length t1 =? length v)%nat with true by (symmetry; apply Nat.eqb_eq; congruence). replace (length t2 =? length v)%nat with true by (symmetry; apply Nat.eqb_eq; congruence). cbn. eauto. }
      destruct EX as [l El]. rewrite El. cbn [bind]. eexists. split; [reflexivity|]. destruct (C80_bilinear fs k i j _ _ rs l Mk RK El) as [_ [_ C3]]. unfold form_dim. rewrite Et, Eu.
      split; [|split; [|split]]; [split; [reflexivity|split; [|auto]]| | |].
      * cbn. rewrite Ld. apply tab_shape.
      * intros v u V W Rv Ru. cbn [bilinear_local]. rewrite !Ld.
        rewrite (quad_bilinear rs (n_dofs D1 e) (fun c => v (nth c ds 0%nat)) (fun c => u (nth c ds 0%nat)) _ (fun r g => kernel_value k r g 0) (fun r g a0 => shape_value i r g a0) (fun r g a0 => shape_value j r g a0)).
        -- apply QR.
           ++ intros x y Hx Exy. rewrite (Kp p x y Exy), (rep_proper v V p x y _ Rv Hx Exy), (rep_proper u W p x y _ Ru Hx Exy). reflexivity.
           ++ intros r g I Hg. rewrite (KV r g I (LX r g I Hg)), (RV v V i r g Rv Ti I (LX r g I Hg)), (RV u W j r g Ru Tj I (LX r g I Hg)). reflexivity.
        -- intros c d Hc Hd. rewrite tab_entry by assumption. apply C3; [assumption|assumption|lia].
      * intros v V _. reflexivity.
      * reflexivity.
    + assert (EX : exists l, eval_linear k i (n_dofs D1 e) rs = Ok l).
      { unfold eval_linear. apply fold_res_total. intros acc r I. destruct (WK r I) as [v [Ev Lv]]. destruct (table_in_region p n ds r i (GR r I) Ti) as [t1 [G1 L1]].
        rewrite Ev. cbn [bind]. rewrite G1. cbn [bind]. replace (length t1 =? length v)%nat with true by (symmetry; apply Nat.eqb_eq; congruence). eauto. }
      destruct EX as [l El]. rewrite El. cbn [bind]. eexists. split; [reflexivity|]. destruct (C80_linear fs k i _ rs l Mk RK El) as [[Ll _] C3]. unfold form_dim. rewrite Et, Eu.
      split; [|split; [|split]]; [split; [reflexivity|split; [|auto]]| | |].
      * cbn. rewrite map_length. congruence.
      * intros v u V W _ _. reflexivity.
      * intros v V Rv. cbn [linear_local]. rewrite Ld.
        rewrite (quad_linear rs (n_dofs D1 e) (fun c => v (nth c ds 0%nat)) _ (fun r g => kernel_value k r g 0) (fun r g a0 => shape_value i r g a0)).
        -- apply QR.
           ++ intros x y Hx Exy. rewrite (Kp p x y Exy), (rep_proper v V p x y _ Rv Hx Exy). reflexivity.
           ++ intros r g I Hg. rewrite (KV r g I (LX r g I Hg)), (RV v V i r g Rv Ti I (LX r g I Hg)). reflexivity.
        -- intros c Hc. rewrite (nth_map' _ l c 0 []) by lia. apply C3; [assumption|lia].
      * reflexivity.
  - assert (EX : exists l, eval_constant k rs = Ok l).
    { unfold eval_constant. apply fold_res_total. intros acc r I. destruct (WK r I) as [v [Ev Lv]]. rewrite Ev. cbn [bind]. eauto. }
    destruct EX as [l El]. rewrite El. cbn [bind]. eexists. split; [reflexivity|]. destruct (C80_constant fs k rs l Mk RK El) as [_ C3]. unfold form_dim. rewrite Et.
    split; [|split; [|split]]; [split; [reflexivity|split; exact Logic.I]| | |]; try (intros; reflexivity).
    cbn [constant_local]. rewrite (C3 0%nat) by lia. apply QR.
    + intros x y _ Exy. apply Kp. exact Exy.
    + intros r g I Hg. apply KV; [exact I|apply LX; assumption].
Qed.
End Use.
