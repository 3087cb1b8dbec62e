(** * Nodal functions on 1D meshes: evaluation *)
From Coq Require Import List Arith Bool Lia Permutation QArith Lqa Qfield.
From Verif Require Import Tree Forest SpecForest History TreeFacts ForestFacts GenFacts Geom SpecGeom IntervalFacts Mesh1D Fem SpecFem ShapeFacts
  Dof SpecDof DofVert SpecDofVert Basis Solver Nodal NodalFacts Nodal1 SpecNodal Nodal1Facts.
From Verif Require Prop_Bin Prop_Dof1D Prop_DofVert DofVertHist DofVertFacts Dof1DHist.
Import ListNotations.
Open Scope Q_scope.

Lemma tiles_mem a b l d : tiles a b l -> In d l -> fst d < snd d /\ a <= fst d /\ snd d <= b.
Proof.
  revert a. induction l as [|c l IH]; intros a T H; [destruct H|]. destruct T as [T1 [T2 T3]].
  assert (Hb : forall l a, tiles a b l -> a <= b).
  { clear. induction l as [|c l IH]; intros a T; cbn in T; [lra|]. destruct T as [T1 [T2 T3]]. specialize (IH _ T3). lra. }
  pose proof (Hb _ _ T3). destruct H as [->|H]; [lra|]. destruct (IH _ T3 H). lra.
Qed.
Lemma tiles_cover a b l x : tiles a b l -> l <> [] -> a <= x <= b -> exists d, In d l /\ fst d <= x <= snd d.
Proof.
  revert a. induction l as [|c l IH]; intros a T N X; [congruence|]. destruct T as [T1 [T2 T3]].
  destruct (Qlt_le_dec (snd c) x) as [H|H].
  - destruct l as [|c' l]; [cbn in T3; lra|]. destruct (IH _ T3) as [d [Hd Hx]]; [discriminate|lra|]. exists d. split; [right|]; auto.
  - exists c. split; [left; reflexivity|]. lra.
Qed.

Section Use.
Context {periodic : bool} {a b : Q} {e : elem} {f : forest itv} {sf : option flag} {s : dofs} {dv : dverts} {L : list nat} {B : bmaps}.
Hypothesis U : in_use periodic a b e f sf s dv L B.

Lemma use_history : vertex_history any_submesh periodic a b e f s dv.
Proof. destruct (iu_hist _ _ _ _ _ _ _ _ _ _ U) as [s0 [v0 [H E]]]. eapply VH_distribute; eauto; [exact Logic.I|apply (iu_rooted _ _ _ _ _ _ _ _ _ _ U)]. Qed.
Lemma use_dof : dof_history periodic a b e f s.
Proof. apply (DofVertHist.vertex_dof _ _ _ _ _ _ _ _ use_history). Qed.
Lemma use_mesh : mesh1d periodic a b e f.
Proof. apply (Dof1DHist.history_mesh _ _ _ _ _ _ use_dof). Qed.
Lemma use_filled p : in_sub f sf p -> filled (n_dofs D1 e) s p /\ forall k j d, dof_at s p k d -> dof_at s p j d -> k = j.
Proof.
  destruct (iu_hist _ _ _ _ _ _ _ _ _ _ U) as [s0 [v0 [H E]]].
  destruct (DofVertHist.vertex_dof _ _ _ _ _ _ _ _ H) as [H0 _].
  destruct (Prop_Dof1D.C33_distribute _ _ _ _ _ _ sf H0 (iu_rooted _ _ _ _ _ _ _ _ _ _ U)) as [s1 [E1 [_ [_ F]]]].
  unfold distribute_dofs in E. cbn [fst snd] in E. rewrite E1 in E. cbn [bind] in E.
  destruct (set_dof_vertices e f sf s1 v0) as [v1|]; [|discriminate E]. cbn [bind] in E. injection E as <- <-. apply F.
Qed.
Lemma leaf_sub p : sub_leaf f sf p -> in_sub f sf p.
Proof. intros [n [E [F _]]]. exists n. auto. Qed.
Lemma use_L d : In d L <-> exists p k, sub_leaf f sf p /\ dof_at s p k d.
Proof.
  destruct (iu_dofs _ _ _ _ _ _ _ _ _ _ U) as [l [El Hl]]. rewrite Hl.
  destruct (DofVertFacts.region_spec f sf s) as [l' [El' [_ Hl']]].
  { intros p Hp. destruct (use_filled p (leaf_sub p Hp)) as [[es [Ee _]] _]. congruence. }
  rewrite El in El'. injection El' as <-. rewrite Hl'. split.
  - intros [p [es [Hp [Ee Ho]]]]. apply In_nth_error in Ho. destruct Ho as [k Hk]. exists p, k. split; auto. exists es. auto.
  - intros [p [k [Hp [es [Ee Hk]]]]]. exists p, es. split; auto. split; auto. eapply nth_error_In; eauto.
Qed.
Lemma use_ne : L <> [].
Proof. intro E. pose proof (iu_basis _ _ _ _ _ _ _ _ _ _ U) as H. rewrite E in H. discriminate H. Qed.
Lemma use_snd : snd B = L.
Proof.
  pose proof (iu_basis _ _ _ _ _ _ _ _ _ _ U) as H. unfold basis_init in H. destruct L as [|d0 L0]; [discriminate H|].
  match type of H with bind ?X _ = _ => destruct X as [acc|]; [|discriminate H] end. cbn [bind] in H. injection H as <-. reflexivity.
Qed.
Lemma use_d2i d : In d L -> exists i, basis_d2i B d = Ok (Some i) /\ nth_error L i = Some d.
Proof.
  intro H. assert (X : forall d, In d L -> (d <= last L 0)%nat).
  { intros d' H'. destruct (le_lt_dec d' (last L 0%nat)) as [Hle|Hlt]; auto. pose proof (Prop_DofVert.C39_order L d' H' Hlt) as Z.
    rewrite (iu_basis _ _ _ _ _ _ _ _ _ _ U) in Z. discriminate Z. }
  destruct (Prop_DofVert.C39_index_maps L (iu_nodup _ _ _ _ _ _ _ _ _ _ U) use_ne X) as [B' [EB [_ [G _]]]].
  rewrite (iu_basis _ _ _ _ _ _ _ _ _ _ U) in EB. injection EB as <-.
  destruct (G d H) as [i [E1 [_ E2]]]. exists i. split; auto. unfold basis_i2d in E2. rewrite use_snd in E2.
  destruct (nth_error L i); congruence.
Qed.
Lemma use_leaf_width p n : fget f p = Some n -> is_leaf_of sf n -> fst (n_data n) < snd (n_data n) /\ a <= fst (n_data n) /\ snd (n_data n) <= b.
Proof.
  intros E H. destruct use_mesh as [[l [P R]] [T _]].
  pose proof (Prop_Bin.C16_leaves_tile l f sf a b P R (iu_rooted _ _ _ _ _ _ _ _ _ _ U) T) as TL.
  apply (tiles_mem _ _ _ _ TL). apply in_map_iff. exists (p, n). split; auto. apply in_fget_leaves. cbn. auto.
Qed.
Lemma use_f_ne : f <> [].
Proof.
  intro E. assert (H : exists d, In d L). { pose proof use_ne as N. clear -N. destruct L as [|d l]; [congruence|]. exists d. left; reflexivity. }
  destruct H as [d H]. apply use_L in H. destruct H as [p [k [[n [En _]] _]]].
  rewrite E in En. destruct p as [|i p]; [discriminate|]. cbn in En. destruct i; discriminate.
Qed.

(** what the bins must be *)
Definition good_bins (bins : list Q -> res binned) (xs : list Q) (bs : binned) : Prop :=
  bins xs = Ok bs /\ Permutation (flat_map snd bs) (seq 0 (length xs)) /\
  forall q idx, In (q, idx) bs -> exists c, fget f q = Some c /\ is_leaf_of sf c /\
    forall j, In j idx -> exists x, nth_error xs j = Some x /\ fst (n_data c) <= x <= snd (n_data c).

Lemma use_bins xs : (forall x, In x xs -> a <= x <= b) -> exists bs, good_bins (bins1 f sf None) xs bs.
Proof.
  intro X. destruct use_mesh as [[l [P R]] [T _]].
  destruct (Prop_Bin.C19_bin_points_interval l f sf xs P R (iu_rooted _ _ _ _ _ _ _ _ _ _ U)) as [[[x [Hx Hn]] _]|[_ [bs [Eb [Pm [_ Hb]]]]]].
  - exfalso. destruct (tiles_cover a b (map n_data f) x T) as [d [Hd Hxd]]; [|auto|].
    + pose proof use_f_ne as N. intro Z. apply N. apply map_eq_nil in Z. exact Z.
    + apply in_map_iff in Hd. destruct Hd as [t [<- Ht]]. exact (Hn t Ht Hxd).
  - exists bs. split; [exact Eb|]. split; auto. intros q idx H. destruct (Hb q idx H) as [_ Hc]. exact Hc.
Qed.
Lemma use_bins_out xs : (exists x, In x xs /\ ~ a <= x <= b) -> bins1 f sf None xs = Err AssertionError.
Proof.
  intros [x [Hx N]]. destruct use_mesh as [[l [P R]] [T _]]. unfold bins1.
  destruct (Prop_Bin.C19_bin_points_interval l f sf xs P R (iu_rooted _ _ _ _ _ _ _ _ _ _ U)) as [[_ E]|[Hin _]]; auto.
  exfalso. destruct (Hin x Hx) as [t [Ht Hxt]]. destruct (tiles_mem a b (map n_data f) (n_data t) T) as [_ [H1 H2]]; [apply in_map; auto|]. apply N. lra.
Qed.

Lemma good_cells der xs bs bins : good_bins bins xs bs ->
  forall q idx, In (q, idx) bs -> exists ds, cell_dofs1 s q = Some ds /\ NoDup ds /\
    forall j, In j idx -> exists x row, nth_error xs j = Some x /\ shapes1 e f der q x = Ok row /\ length row = length ds.
Proof.
  intros [_ [_ G]] q idx H. destruct (G q idx H) as [c [Ec [Lc Hj]]].
  destruct (use_filled q) as [Fq Iq]; [apply leaf_sub; exists c; auto|].
  destruct (cell_dofs_filled s q _ Fq Iq) as [ds [Ed [Ld [Nd _]]]]. exists ds. split; auto. split; auto.
  intros j Hj'. destruct (Hj j Hj') as [x [Ex Hx]]. destruct (use_leaf_width q c Ec Lc) as [W _].
  destruct (shapes_row e f der q c x Ec W Hx) as [row [Er [Lr _]]]. exists x, row. rewrite Ld. auto.
Qed.
Lemma good_dofs xs bs bins : good_bins bins xs bs -> forall q idx ds d, In (q, idx) bs -> cell_dofs1 s q = Some ds -> In d ds -> In d L.
Proof.
  intros [_ [_ G]] q idx ds d H Ed Hd. destruct (G q idx H) as [c [Ec [Lc _]]].
  assert (Sq : sub_leaf f sf q) by (exists c; auto).
  destruct (use_filled q (leaf_sub q Sq)) as [Fq Iq]. destruct (cell_dofs_filled s q _ Fq Iq) as [ds' [Ed' [_ [_ Hk]]]].
  rewrite Ed in Ed'. injection Ed' as <-. apply In_nth_error in Hd. destruct Hd as [k Hd]. apply use_L. exists q, k. split; auto. apply Hk. auto.
Qed.

Lemma eval_good sl cell der data ns xs bs : set_order sl -> array_of (length L) ns data -> good_bins (bins1 f sf cell) xs bs ->
  exists R, nodal_eval1 e f sf s sl cell der (mkNodal B data) xs = Ok R /\ length R = length xs /\
    forall j x r, nth_error xs j = Some x -> nth_error R j = Some r -> length r = ns /\
      exists p idx, In (p, idx) bs /\ In j idx /\ leaf_around f sf x p /\
      forall t v, (t < ns)%nat -> nodal_values L data t v -> value_in e f s v der p x (nth t r 0).
Proof.
  intros SL [Ld Lr] G. pose proof G as [Gb [Gp Gc]].
  assert (En : n_samples data = ns).
  { unfold n_samples. destruct data as [|r0 data0]; [|apply Lr; left; reflexivity]. exfalso. apply use_ne. cbn in Ld. apply length_zero_iff_nil. auto. }
  destruct (eval_x_spec (bins1 f sf cell) (cell_dofs1 s) (shapes1 e f der) sl SL xs bs Gb Gp (good_cells der xs bs _ G) (mkNodal B data) ns En) as [R [ER [LR HR]]].
  { intros q idx ds d H1 H2 H3. pose proof (good_dofs xs bs _ G q idx ds d H1 H2 H3) as Hd. destruct (use_d2i d Hd) as [i [E1 E2]].
    exists i. cbn. split; auto. rewrite Ld. apply nth_error_Some. congruence. }
  exists R. split; [exact ER|]. split; auto. intros j x r Ex Er. destruct (HR j x r Ex Er) as [Lt [q [idx [ds [row [Hb [Hj [Ed [Es [Lrow Hs]]]]]]]]]].
  split; auto. exists q, idx. split; auto. split; auto. destruct (Gc q idx Hb) as [c [Ec [Lc Hc]]]. destruct (Hc j Hj) as [x' [Ex' Hx]]. rewrite Ex in Ex'. injection Ex' as <-.
  split; [exists c; auto|]. intros t v Ht Hv.
  destruct (use_filled q) as [Fq Iq]; [apply leaf_sub; exists c; auto|].
  destruct (cell_dofs_filled s q _ Fq Iq) as [ds' [Ed' [Lds [_ Hk]]]]. rewrite Ed in Ed'. injection Ed' as <-.
  destruct (use_leaf_width q c Ec Lc) as [W _].
  pose proof (cell_value e f s v der q c ds row x Ec W Hx Lds Hk Es) as V.
  assert (Eq : nth t r 0 == sumQ (map (fun cd => fst cd * v (snd cd)) (combine row ds))).
  { rewrite (Hs t Ht). assert (Hds : forall d, In d ds -> value_of (mkNodal B data) t d == v d).
    { intros d Hd. pose proof (good_dofs xs bs _ G q idx ds d Hb Ed Hd) as HL. destruct (use_d2i d HL) as [i [E1 E2]].
      unfold value_of. cbn [nd_basis nd_data]. rewrite E1.
      destruct (nth_error data i) as [rw|] eqn:Erw; [|apply nth_error_None in Erw; assert (i < length L)%nat by (apply nth_error_Some; congruence); lia].
      destruct (Hv i d rw E2 Erw) as [y [Ey Evy]]. rewrite (nth_error_nth data i [] Erw), (nth_error_nth rw t 0 Ey). symmetry. exact Evy. }
    clear -Hds. revert row. induction ds as [|d ds IH]; intros [|c row]; cbn [combine map sumQ fst snd]; try reflexivity.
    rewrite (Hds d (or_introl eq_refl)), IH; [reflexivity|]. intros d' H; apply Hds; right; auto. }
  destruct V as [c0 [Lp V]]. exists c0. split; auto. destruct der as [|i|i j']; cbn [poly_value] in *.
  - rewrite Eq. exact V.
  - intros eps He. destruct (V eps He) as [dl [Hdl Bd]]. exists dl. split; auto. intros h Hh. rewrite Eq. auto.
  - destruct V as [g [Vg V]]. exists g. split; auto. intros eps He. destruct (V eps He) as [dl [Hdl Bd]]. exists dl. split; auto. intros h Hh. rewrite Eq. auto.
Qed.
End Use.
