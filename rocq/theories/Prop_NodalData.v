(** * C64: the data of nodal functions *)
From Coq Require Import List Arith Bool Lia Permutation QArith Lqa Qfield.
From Verif Require Import Tree Forest SpecForest TreeFacts Geom SpecGeom Mesh1D Fem SpecFem
  Dof SpecDof DofVert SpecDofVert Basis Solver Nodal NodalFacts Nodal1 SpecNodal Nodal1Facts Nodal1Main Nodal1Interp Nodal1More Prop_Nodal Prop_Nodal2 Prop_Nodal3.
From Verif Require DofVertFacts.
Import ListNotations.
Open Scope Q_scope.

Definition put_values (i : nat) : list (list Q) -> option nat * Q -> res (list (list Q)) := fun dat kv =>
  bind (take dat (fst kv)) (fun row =>
  Ok (set_nth (match fst kv with Some k => k | None => length dat - 1 end)%nat (set_nth i (snd kv) row) dat)).
Lemma put_values_ok i : forall kvs dat, NoDup (map fst kvs) -> (forall k y, In (k, y) kvs -> exists j, k = Some j /\ (j < length dat)%nat) ->
  exists dat', fold_res (put_values i) kvs dat = Ok dat' /\ length dat' = length dat /\
    forall j row, nth_error dat j = Some row ->
      (forall y, In (Some j, y) kvs -> nth_error dat' j = Some (set_nth i y row)) /\
      ((forall y, ~ In (Some j, y) kvs) -> nth_error dat' j = Some row).
Proof.
  induction kvs as [|[k y] kvs IH]; intros dat ND H; cbn [fold_res].
  - exists dat. split; auto. split; auto. intros j row Ej. split; [intros y []|auto].
  - cbn [map fst] in ND. inversion ND as [|? ? N1 N2]; subst. destruct (H k y (or_introl eq_refl)) as [j0 [-> Lj0]].
    unfold put_values at 1. cbn [fst snd take]. unfold at_. destruct (nth_error dat j0) as [row0|] eqn:E0; [|apply nth_error_None in E0; lia]. cbn [bind].
    destruct (IH (set_nth j0 (set_nth i y row0) dat) N2) as [dat' [E1 [L1 H1]]].
    { intros k' y' Hk. rewrite set_nth_length. apply (H k' y'). right; auto. }
    exists dat'. split; auto. split; [rewrite L1, set_nth_length; auto|].
    intros j row Ej. destruct (Nat.eq_dec j j0) as [->|Nj].
    + assert (row = row0) by congruence. subst row0. destruct (H1 j0 (set_nth i y row)) as [_ G]; [apply nth_set_nth_eq; auto|].
      assert (NI : forall y', ~ In (Some j0, y') kvs). { intros y' K. apply N1. apply in_map_iff. exists (Some j0, y'). auto. }
      split; [intros y' [K|K]; [injection K as <-; apply G; auto|destruct (NI y' K)]|]. intro K. exfalso. apply (K y). left; reflexivity.
    + destruct (H1 j row) as [G1 G2]; [rewrite nth_set_nth_neq; auto|]. split.
      * intros y' [K|K]; [injection K; intros; congruence|auto].
      * intro K. apply G2. intros y' K'. apply (K y'). right; auto.
Qed.

Lemma nth_error_combine_inv {X Y} i : forall (l : list X) (m : list Y) x y, nth_error (combine l m) i = Some (x, y) -> nth_error l i = Some x /\ nth_error m i = Some y.
Proof. induction i as [|i IH]; intros [|u l] [|w m] x y H; cbn in *; try discriminate; [injection H as <- <-; auto|apply IH; auto]. Qed.

(** modify_data(values, i_sample, dofs): the sample has the new values at these
    dofs; its other values and the other samples are unchanged *)
Theorem C64_modify periodic a b e f sf s dv L B data ns vals i ds :
  in_use periodic a b e f sf s dv L B -> array_of (length L) ns data -> NoDup ds -> (forall d, In d ds -> In d L) ->
  (length vals = length ds \/ length vals = 1%nat) -> (i < ns)%nat ->
  exists data', modify_data vals i ds (mkNodal B data) = Ok (mkNodal B data') /\ array_of (length L) ns data' /\
    forall t v v', nodal_values L data t v ->
      (forall k d y, t = i -> nth_error ds k = Some d -> nth_error vals k = Some y \/ vals = [y] -> v' d == y) ->
      (forall d, t <> i \/ ~ In d ds -> v' d == v d) ->
      nodal_values L data' t v'.
Proof.
  intros U [Ld Lr] ND Hd Lv Hi. set (ix := fun d => match basis_d2i B d with Ok o => o | Err _ => None end).
  assert (Hix : forall d, In d ds -> exists j, basis_d2i B d = Ok (Some j) /\ ix d = Some j /\ nth_error L j = Some d).
  { intros d H. destruct (use_d2i U d (Hd d H)) as [j [E1 E2]]. exists j. unfold ix. rewrite E1. auto. }
  assert (En : n_samples data = ns).
  { unfold n_samples. destruct data as [|r0 data0]; [|apply Lr; left; reflexivity]. exfalso. apply (use_ne U). cbn in Ld. apply length_zero_iff_nil. auto. }
  unfold modify_data. cbn [nd_basis nd_data]. rewrite (mr_ok _ ix).
  2:{ intros d H. destruct (Hix d H) as [j [E1 [E2 _]]]. rewrite E2. auto. }
  cbn [bind]. cbv zeta. remember (match vals with [y] => map (fun _ => y) ds | _ => vals end) as vs eqn:Evs.
  assert (Lvs : length vs = length ds).
  { rewrite Evs. destruct Lv as [Lv|Lv]; [|destruct vals as [|y [|? ?]]; try discriminate; apply map_length].
    destruct vals as [|y [|? ?]]; auto. apply map_length. }
  rewrite Lvs, Nat.eqb_refl. cbn [negb]. rewrite En. replace (i <? ns)%nat with true by (symmetry; apply Nat.ltb_lt; auto). cbn [negb].
  assert (MF : map fst (combine (map ix ds) vs) = map ix ds).
  { clear -Lvs. revert vs Lvs. induction ds as [|d ds IH]; intros [|y vs] H; try discriminate; auto. cbn. rewrite IH; auto. }
  destruct (put_values_ok i (combine (map ix ds) vs) data) as [data' [E1 [L1 H1]]].
  { rewrite MF. clear -ND Hix Hd. induction ds as [|d ds IH]; [constructor|]. inversion ND as [|? ? N1 N2]; subst. cbn [map]. constructor.
    - intro K. apply in_map_iff in K. destruct K as [d' [K1 K2]]. destruct (Hix d (or_introl eq_refl)) as [j [_ [E1 E2]]]. destruct (Hix d' (or_intror K2)) as [j' [_ [E3 E4]]].
      assert (d' = d) by congruence. subst d'. auto.
    - apply IH; auto; intros d' H; [apply Hd|apply Hix]; right; auto. }
  { intros k y H. apply in_combine_l in H. apply in_map_iff in H. destruct H as [d [<- H]]. destruct (Hix d H) as [j [_ [E2 E3]]]. exists j. split; auto.
    rewrite Ld. apply nth_error_Some. congruence. }
  unfold put_values in E1. rewrite E1. cbn [bind]. exists data'. split; auto.
  (* the dofs of the updated rows *)
  assert (Kin : forall j d, nth_error L j = Some d -> forall y, In (Some j, y) (combine (map ix ds) vs) -> exists k, nth_error ds k = Some d /\ nth_error vs k = Some y).
  { intros j d Ej y H. apply In_nth_error in H. destruct H as [k H]. exists k. 
    assert (X : nth_error (map ix ds) k = Some (Some j) /\ nth_error vs k = Some y).
    { clear -H. revert k H. generalize (map ix ds) as l. induction vs as [|y' vs0 IH]; intros [|o l] [|k] H; cbn in *; try discriminate; [injection H as <- <-; auto|apply IH; auto]. }
    destruct X as [X1 X2]. split; auto. rewrite nth_error_map in X1. destruct (nth_error ds k) as [d'|] eqn:Ed; [|discriminate]. cbn in X1. injection X1 as X1.
    destruct (Hix d' (nth_error_In _ _ Ed)) as [j' [_ [E2 E3]]]. assert (j' = j) by congruence. subst j'. f_equal. congruence. }
  assert (Kout : forall j d, nth_error L j = Some d -> In d ds -> exists k y, nth_error ds k = Some d /\ nth_error vs k = Some y /\ In (Some j, y) (combine (map ix ds) vs)).
  { intros j d Ej H. apply In_nth_error in H. destruct H as [k Ek]. exists k. destruct (nth_error vs k) as [y|] eqn:Ey.
    2:{ apply nth_error_None in Ey. assert (k < length ds)%nat by (apply nth_error_Some; congruence). lia. }
    exists y. split; auto. split; auto. destruct (Hix d (nth_error_In _ _ Ek)) as [j' [_ [E2 E3]]].
    assert (j' = j). { apply (proj1 (NoDup_nth_error L) (iu_nodup _ _ _ _ _ _ _ _ _ _ U)); [apply nth_error_Some; congruence|congruence]. } subst j'.
    apply (nth_error_In _ k). assert (X : nth_error (map ix ds) k = Some (Some j)) by (rewrite nth_error_map, Ek; cbn; congruence).
    clear -X Ey. revert k X Ey. generalize (map ix ds) as l. induction vs as [|y' vs0 IH]; intros [|o l] [|k] X Y; cbn in *; try discriminate; [congruence|apply IH; auto]. }
  assert (Row : forall j d row, nth_error L j = Some d -> nth_error data j = Some row ->
     (exists k y, nth_error ds k = Some d /\ nth_error vs k = Some y /\ nth_error data' j = Some (set_nth i y row)) \/ (~ In d ds /\ nth_error data' j = Some row)).
  { intros j d row Ej Er. destruct (H1 j row Er) as [G1 G2]. destruct (in_dec Nat.eq_dec d ds) as [H|H].
    - left. destruct (Kout j d Ej H) as [k [y [K1 [K2 K3]]]]. exists k, y. auto.
    - right. split; auto. apply G2. intros y K. destruct (Kin j d Ej y K) as [k [K1 _]]. apply H. eapply nth_error_In; eauto. }
  split.
  - split; [lia|]. intros r Hr. apply In_nth_error in Hr. destruct Hr as [j Hj].
    assert (j < length data')%nat by (apply nth_error_Some; congruence).
    destruct (nth_error data j) as [row|] eqn:Er; [|apply nth_error_None in Er; lia].
    destruct (nth_error L j) as [d|] eqn:Ed; [|apply nth_error_None in Ed; lia].
    assert (Lrow : length row = ns) by (apply Lr; eapply nth_error_In; eauto).
    destruct (Row j d row Ed Er) as [[k [y [_ [_ K]]]]|[_ K]]; rewrite Hj in K; injection K as ->; [rewrite set_nth_length|]; auto.
  - intros t v v' V Hn Ho j d r Ej Er.
    destruct (nth_error data j) as [row|] eqn:Erow.
    2:{ apply nth_error_None in Erow. assert (j < length L)%nat by (apply nth_error_Some; congruence). lia. }
    destruct (V j d row Ej Erow) as [y0 [Ey0 Evy]].
    destruct (Row j d row Ej Erow) as [[k [y [K1 [K2 K3]]]]|[Nd K]].
    + rewrite Er in K3. injection K3 as ->. destruct (Nat.eq_dec t i) as [->|Nt].
      * exists y. split; [apply nth_set_nth_eq; apply nth_error_Some; congruence|]. apply (Hn k d y eq_refl K1).
        rewrite Evs in K2. destruct vals as [|z [|? ?]]; auto. rewrite nth_error_map, K1 in K2. cbn in K2. injection K2 as ->. auto.
      * exists y0. split; [rewrite nth_set_nth_neq; auto|]. rewrite (Ho d); auto.
    + rewrite Er in K. injection K as ->. exists y0. split; auto. rewrite (Ho d); auto.
Qed.
Print Assumptions C64_modify.

(** add_samples(new): the new array holds the old samples and then the new ones;
    the number of dofs of the submesh, which is checked, is the size of the basis *)
Lemma use_count periodic a b e f sf s dv L B : in_use periodic a b e f sf s dv L B -> count_dofs f sf s = Ok (length L).
Proof.
  intro U. destruct (iu_dofs _ _ _ _ _ _ _ _ _ _ U) as [l [El Hl]]. unfold count_dofs. rewrite El. cbn [bind]. f_equal.
  destruct (DofVertFacts.leaf_region e f sf s (fun p Hp => proj1 (use_filled U p Hp))) as [l' [El' [Nl Hl']]].
  rewrite El in El'. injection El' as <-.
  assert (X : Permutation (map Some L) l).
  { apply NoDup_Permutation; auto.
    - apply FinFun.Injective_map_NoDup; [intros x y K; congruence|apply (iu_nodup _ _ _ _ _ _ _ _ _ _ U)].
    - intro o. split.
      + intro K. apply in_map_iff in K. destruct K as [d [<- K]]. apply Hl. auto.
      + intro K. destruct (proj1 (Hl' o) K) as [p [n [k [d [_ [-> _]]]]]]. apply in_map. apply Hl. auto. }
  rewrite <- (Permutation_length X). apply map_length.
Qed.
Theorem C64_add periodic a b e f sf s dv L B data ns new m :
  in_use periodic a b e f sf s dv L B -> array_of (length L) ns data -> array_of (length L) m new ->
  exists n data', count_dofs f sf s = Ok n /\ add_samples n new (mkNodal B data) = Ok (mkNodal B data') /\
    array_of (length L) (ns + m) data' /\
    (forall t v, nodal_values L data t v -> nodal_values L data' t v) /\
    (forall t v, nodal_values L new t v -> nodal_values L data' (ns + t) v).
Proof.
  intros U [Ld Lr] [Ln Lm]. exists (length L), (map (fun ab => fst ab ++ snd ab) (combine data new)). split; [apply (use_count _ _ _ _ _ _ _ _ _ _ U)|].
  assert (LC : length (map (fun ab : list Q * list Q => fst ab ++ snd ab) (combine data new)) = length L) by (rewrite map_length, combine_length; lia).
  split; [|split; [|split]].
  - unfold add_samples, nodal_of_data. cbn [nd_basis nd_data]. rewrite LC, Ln, Ld, Nat.eqb_refl. cbn [negb]. rewrite (use_snd U), Nat.eqb_refl. reflexivity.
  - split; auto. intros r H. apply in_map_iff in H. destruct H as [[x y] [<- H]]. cbn [fst snd]. rewrite app_length.
    rewrite (Lr x (in_combine_l _ _ _ _ H)), (Lm y (in_combine_r _ _ _ _ H)). reflexivity.
  - intros t v V i d row Ei Er. rewrite nth_error_map in Er.
    destruct (nth_error (combine data new) i) as [[x y]|] eqn:Ec; [|discriminate]. cbn in Er. injection Er as <-.
    apply nth_error_combine_inv in Ec. destruct Ec as [Ex Ey]. destruct (V i d x Ei Ex) as [z [Ez Hz]]. exists z. split; auto.
    rewrite nth_error_app1; auto. apply nth_error_Some. congruence.
  - intros t v V i d row Ei Er. rewrite nth_error_map in Er.
    destruct (nth_error (combine data new) i) as [[x y]|] eqn:Ec; [|discriminate]. cbn in Er. injection Er as <-.
    apply nth_error_combine_inv in Ec. destruct Ec as [Ex Ey]. destruct (V i d y Ei Ey) as [z [Ez Hz]]. exists z. split; auto.
    assert (Lx : length x = ns) by (apply Lr; eapply nth_error_In; eauto).
    rewrite nth_error_app2 by lia. rewrite Lx. replace (ns + t - ns)%nat with t by lia. auto.
Qed.
Print Assumptions C64_add.
(** data of another size is not accepted *)
Theorem C64_add_size periodic a b e f sf s dv L B data new :
  in_use periodic a b e f sf s dv L B -> length new <> length L ->
  exists n, count_dofs f sf s = Ok n /\ add_samples n new (mkNodal B data) = Err AssertionError.
Proof.
  intros U N. exists (length L). split; [apply (use_count _ _ _ _ _ _ _ _ _ _ U)|]. unfold add_samples. apply Nat.eqb_neq in N. rewrite N. reflexivity.
Qed.
Print Assumptions C64_add_size.

(** a case: nine dofs, two samples *)
Example C64_case : in_use false 0 1 Q2 nx_f None (fst (nx_sv false Q2)) (snd (nx_sv false Q2)) (snd (nx_B false Q2)) (nx_B false Q2) /\
  let nd := mkNodal (nx_B false Q2) (map (fun d => [inject_Z (Z.of_nat d); 0]) (snd (nx_B false Q2))) in
  bind (modify_data [5; 6] 1 [3; 0]%nat nd) (fun nd' => Ok (nd_data nd')) =
    Ok [[0; 6]; [1; 0]; [2; 0]; [3; 5]; [4; 0]; [5; 0]; [6; 0]; [7; 0]; [8; 0]] /\
  bind (modify_data [5] 0 [3; 0]%nat nd) (fun nd' => Ok (nd_data nd')) =
    Ok [[5; 0]; [1; 0]; [2; 0]; [5; 0]; [4; 0]; [5; 0]; [6; 0]; [7; 0]; [8; 0]] /\
  bind (count_dofs nx_f None (fst (nx_sv false Q2))) (fun n => bind (add_samples n (repeat [9] 9) nd) (fun nd' => Ok (nd_data nd'))) =
    Ok [[0; 0; 9]; [1; 0; 9]; [2; 0; 9]; [3; 0; 9]; [4; 0; 9]; [5; 0; 9]; [6; 0; 9]; [7; 0; 9]; [8; 0; 9]].
Proof. split; [apply nx_use; vm_compute; reflexivity|]. cbv zeta. repeat split; vm_compute; reflexivity. Qed.
