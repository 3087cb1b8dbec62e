(** * C29, C30: the 2:1 rule: is_balanced and balance *)
From Coq Require Import List Arith Bool Lia QArith.
From Verif Require Import Tree Forest LabelFacts Geom SpecGeom Dcel SpecDcel Quad SpecForest TreeFacts ForestFacts QuadFacts QuadSplit QuadInv SpecQuad QuadNb QuadGeomFacts QuadCoords QuadHist BalSets QuadBal Prop_QuadMesh BalLoop RootFacts Prop_Grid.
Import ListNotations.
Open Scope nat_scope.

(** ** C30 *)
(** is_balanced(subforest_flag) never raises and decides: no leaf is too coarse *)
Theorem C30_is_balanced pts faces m0 m fl : mesh_history pts faces m0 m ->
  exists b, is_balanced fl m = Ok b /\ (b = true <-> two_to_one (face_adj faces) (cells m) fl).
Proof.
  intros H. pose proof (history_minv _ _ _ _ H) as M. destruct (is_balanced_spec (m_s _ _ _ M) fl) as [b [E Eb]].
  exists b. split; auto. rewrite Eb. unfold two_to_one. split; intros Z p Lp Cp; apply (Z p Lp); apply (history_coarse pts faces m0 fl m p H); auto.
Qed.
Print Assumptions C30_is_balanced.

(** submeshes as closed sets *)
Lemma sub_closed pts faces m fl : minv pts faces m -> submesh_rooted (cells m) fl ->
  closedS (insub m fl) /\ (forall r, here m [r] -> insub m fl [r]).
Proof.
  intros M R. pose proof (m_s _ _ _ M) as I.
  assert (PH : forall p, present (cells m) p = true <-> here m p).
  { intros p. rewrite here_fget. unfold present. destruct (fget (cells m) p) as [n|]; split; eauto; [discriminate|intros [x Z]; discriminate]. }
  destruct fl as [g|].
  - destruct R as [R1 [R2 R3]]. split; [constructor|].
    + intros a i Na Si. apply insub_marked in Si. apply insub_marked. eapply R2; eauto.
    + intros a i j Na Si Lj. pose proof (insub_here _ _ _ Si) as Hi. apply insub_marked in Si. apply insub_marked.
      apply (R3 a i j); auto. apply PH. apply (s_fam m I a i Na Hi); auto.
    + intros r Hr. apply insub_marked. apply R1. apply PH. auto.
  - split; [constructor|].
    + intros a i Na Si. rewrite insub_None in *. eapply here_parent; eauto.
    + intros a i j Na Si Lj. rewrite insub_None in *. apply (s_fam m I a i Na Si); auto.
    + intros r Hr. apply insub_None; auto.
Qed.
Lemma closed_rooted m fl : closedS (insub m fl) -> (forall r, here m [r] -> insub m fl [r]) -> sinv m -> submesh_rooted (cells m) fl.
Proof.
  intros Cl Rt I. destruct fl as [g|]; [|exact Logic.I]. simpl. unfold rooted, closed_set.
  assert (PH : forall p, present (cells m) p = true <-> here m p).
  { intros p. rewrite here_fget. unfold present. destruct (fget (cells m) p) as [n|]; split; eauto; [discriminate|intros [x Z]; discriminate]. }
  split; [|split].
  - intros i Hi. apply insub_marked. apply Rt. apply PH; auto.
  - intros a i r Na Si. apply insub_marked in Si. apply insub_marked. revert Si. revert i. induction r as [|j r IH] using rev_ind; intros i Si.
    + eapply (c_up _ Cl); eauto.
    + apply (IH i). rewrite app_comm_cons, app_assoc in Si. eapply (c_up _ Cl); [|exact Si]. destruct a; discriminate.
  - intros a i j Na Si Hj. apply insub_marked in Si. apply insub_marked. apply PH in Hj. eapply (c_sib _ Cl); eauto. apply (s_fam m I a j Na Hj).
Qed.

(** for rooted submeshes: what is checked is that leaves side by side differ by
    at most one level *)
Theorem C30_levels pts faces m0 m fl : mesh_history pts faces m0 m -> submesh_rooted (cells m) fl ->
  (is_balanced fl m = Ok true <->
   forall p q, sub_leaf (cells m) fl p -> sub_leaf (cells m) fl q -> beside (face_adj faces) p q -> length q <= length p + 1).
Proof.
  intros H R. pose proof (history_minv _ _ _ _ H) as M. destruct (sub_closed pts faces m fl M R) as [Cl Rt].
  destruct (C30_is_balanced pts faces m0 m fl H) as [b [E Eb]]. rewrite E.
  assert (NEA : forall q k' q' j', nb (face_adj faces) q k' q' j' -> q' <> []) by (intros a b' a' b'' Z; apply (nb_nonempty _ _ _ _ _ Z)).
  assert (NN : forall p, sub_leaf (cells m) fl p -> p <> []) by (intros p [n [F _]] ->; discriminate).
  assert (X : two_to_one (face_adj faces) (cells m) fl <-> forall p q, sub_leaf (cells m) fl p -> sub_leaf (cells m) fl q -> beside (face_adj faces) p q -> length q <= length p + 1).
  { split.
    - intros Z p q Lp Lq [k [b' [j [r [N [-> F]]]]]]. rewrite app_length, (nb_length _ _ _ _ _ N).
      destruct r as [|i [|c r]]; [simpl; lia|simpl; lia|]. exfalso. apply (Z p Lp). apply (closed_coarse _ _ p Cl NEA). exists k, b', j, i, c.
      split; auto. inversion F; subst. split; auto. apply sub_leaf_set in Lq; [|eapply NN; eauto]. destruct Lq as [Sq _].
      replace (b' ++ i :: c :: r) with ((b' ++ [i; c]) ++ r) in Sq by (rewrite <- app_assoc; auto).
      clear - Sq Cl. revert Sq. induction r as [|x r IH] using rev_ind; [rewrite app_nil_r; auto|]. rewrite app_assoc. intros Sq. apply IH.
      eapply (c_up _ Cl); [|exact Sq]. destruct b'; discriminate.
    - intros Z p Lp Cp. apply (closed_coarse _ _ p Cl NEA) in Cp. destruct Cp as [k [b' [j [i [c [N [Ti Sc]]]]]]].
      destruct (nb_sides _ _ _ _ _ (A_lt pts faces m0 m H) N) as [_ [Lj _]]. pose proof (NEA _ _ _ _ N) as Nb.
      assert (S0 : insub m fl (b' ++ [i; j])).
      { rewrite app2 in *. eapply (c_sib _ Cl); [|exact Sc|exact Lj]. destruct b'; discriminate. }
      destruct (depth_bound m) as [D HD].
      assert (G : forall n r, Forall (touches j) r -> 2 <= length r -> insub m fl (b' ++ r) -> D < length b' + length r + n ->
         exists r', Forall (touches j) r' /\ 2 <= length r' /\ sub_leaf (cells m) fl (b' ++ r')).
      { induction n as [|n IH]; intros r F L2 Sr Ln.
        - apply insub_here in Sr. apply HD in Sr. rewrite app_length in Sr. lia.
        - assert (Nr : b' ++ r <> []) by (destruct b'; discriminate || congruence).
          destruct (insub_dec m fl (b' ++ r ++ [j])) as [Sj|NSj].
          + apply (IH (r ++ [j])); auto; [apply Forall_app; split; auto; constructor; auto; left; auto| |]; rewrite app_length; simpl; lia.
          + exists r. split; auto. split; auto. apply sub_leaf_set; auto. split; auto. intros x Sx. apply NSj. rewrite app_assoc. eapply (c_sib _ Cl); eauto. }
      destruct (G (S D) [i; j]) as [r [F [L2 Lr]]]; auto; [constructor; auto; constructor; auto; left; auto|simpl; lia|].
      assert (B : beside (face_adj faces) p (b' ++ r)) by (exists k, b', j, r; auto). specialize (Z p _ Lp Lr B). rewrite app_length, (nb_length _ _ _ _ _ N) in Z. lia. }
  rewrite <- X, <- Eb. split; [intros [= ->]; auto|intros ->; auto].
Qed.
Print Assumptions C30_levels.

(** ** C29 *)
Lemma leaves_set m fl p : In p (map fst (fget_leaves (cells m) None fl BreadthFirst)) <-> leafS (insub m fl) p.
Proof.
  assert (L : In p (map fst (fget_leaves (cells m) None fl BreadthFirst)) <-> sub_leaf (cells m) fl p).
  { rewrite in_map_iff. split.
    - intros [[p' n] [E Ip]]. cbn [fst] in E. subst p'. apply in_fget_leaves in Ip. exists n. tauto.
    - intros [n [F H]]. exists (p, n). split; auto. apply in_fget_leaves. simpl. tauto. }
  rewrite L. destruct p as [|a p]; [|apply sub_leaf_set; discriminate].
  split; [intros [n [F _]]|intros [[n [F _]] _]]; discriminate.
Qed.
Lemma rooted_b (m : mesh2) fl : subtrees_rooted fl (cells m) = true <-> submesh_rooted (cells m) fl.
Proof. destruct fl as [g|]; [apply subtrees_rooted_iff|simpl; tauto]. Qed.

(** balance raises AssertionError exactly if the submesh is not rooted.  Otherwise
    it terminates without exception, whatever is popped from the set, if the
    root cells are convex; [bound] does not depend on the order.  The result is
    reached by splitting cells and setting labels: cells, half-edges and labels
    stay, and new cells are in the submesh and not deeper than it was. *)
Theorem C29_terminates pts faces m0 m fl : mesh_history pts faces m0 m -> (forall fc, In fc faces -> convex (face_quad pts fc)) ->
  exists bound, forall pick fuel, bound < fuel ->
    (~ submesh_rooted (cells m) fl /\ balance fuel pick fl m = Err AssertionError) \/
    (submesh_rooted (cells m) fl /\ exists m', balance fuel pick fl m = Ok m' /\
       mesh_history pts faces m0 m' /\ edits m m' /\ kept fl m m' /\
       (forall p c, fget (cells m') p = Some c -> (exists c0, fget (cells m) p = Some c0) \/ in_sub (cells m') fl p) /\
       (forall d, (forall p, in_sub (cells m) fl p -> length p <= d) -> forall p, in_sub (cells m') fl p -> length p <= d)).
Proof.
  intros H CV. set (q := map fst (fget_leaves (cells m) None fl BreadthFirst)).
  assert (Hq : forall p, In p q -> here m p) by (intros p Ip; apply leaves_set in Ip; destruct Ip as [Sp _]; eapply insub_here; eauto).
  destruct (depth_bound m) as [D HD].
  exists (mu faces fl D m q). intros pick fuel Lf. unfold balance. fold q.
  destruct (subtrees_rooted fl (cells m)) eqn:ER.
  - right. split; [apply rooted_b; auto|].
    (* the depth bound is quantified inside, so the invariant carries it *)
    set (J := fun m' q' => base_inv pts faces m0 fl D m m' q' /\ forall d, (forall p, in_sub (cells m) fl p -> length p <= d) -> forall p, in_sub (cells m') fl p -> length p <= d).
    destruct (loop_ind fl J (mu faces fl D) (fun _ _ => True) pick) with (fuel := fuel) (m := m) (q := q) as [m' [E [Jb Jd]]]; auto.
    + intros m1 q1 i p [J1 J2] E _. destruct (base_step pts faces m0 CV fl D m m1 q1 i p J1 E) as [m2 [add [ES [R [J' M']]]]].
      exists m2, add. split; auto. split; auto. split; auto. intros d Hd x Sx. destruct R as [[_ [-> _]]|R]; [eapply J2; eauto|].
      apply (f_sub _ _ _ _ _ _ R) in Sx. destruct Sx as [Sx|[y [_ ->]]]; [eapply J2; eauto|].
      destruct (f_coarse _ _ _ _ _ _ R) as [k [v [j [z [c [N [_ [_ [_ Sc]]]]]]]]]. pose proof (J2 d Hd _ Sc) as L. rewrite app_length in *. cbn [length] in *.
      rewrite (nb_length _ _ _ _ _ N) in L. lia.
    + split; auto. constructor; auto; [apply kept_refl|constructor|]. intros p Sp. apply HD. eapply insub_here; eauto.
    + exists m'. split; auto. split; [apply (b_hist _ _ _ _ _ _ _ _ Jb)|]. split; [apply (b_edits _ _ _ _ _ _ _ _ Jb)|]. split; [apply (b_kept _ _ _ _ _ _ _ _ Jb)|].
      split; auto. intros p c Fp. assert (Hp : here m' p) by (apply here_fget; eauto). destruct (b_new _ _ _ _ _ _ _ _ Jb p Hp) as [Z|Z]; auto.
      left. apply here_fget. auto.
  - left. split; auto. intros R. apply rooted_b in R. congruence.
Qed.
Print Assumptions C29_terminates.

(** the common core of the next theorems *)
Lemma balance_core pts faces m0 m fl whole : mesh_history pts faces m0 m -> (forall fc, In fc faces -> convex (face_quad pts fc)) ->
  submesh_rooted (cells m) fl -> (whole = true -> whole_mesh (cells m) fl) ->
  exists bound, forall (TT : path -> Prop) pick fuel, bound < fuel -> (forall k q, q <> [] -> sel whole q (pick k q mod length q)) ->
    (forall p, insub m fl p -> TT p) -> (forall p, TT p -> too_coarse (face_adj faces) TT p -> forall i, i < 4 -> TT (p ++ [i])) ->
    exists m' D, balance fuel pick fl m = Ok m' /\ full_inv pts faces m0 fl whole TT D m m' [].
Proof.
  intros H CV R W. pose proof (history_minv _ _ _ _ H) as M. destruct (sub_closed pts faces m fl M R) as [Cl Rt].
  set (q := map fst (fget_leaves (cells m) None fl BreadthFirst)). destruct (depth_bound m) as [D HD].
  exists (mu faces fl D m q). intros TT pick fuel Lf Se T1 T2. unfold balance. rewrite (proj2 (rooted_b m fl) R). fold q.
  eapply (loop_balances pts faces m0 CV fl whole TT m q pick fuel (mu faces fl D m q)); eauto.
  - intros p. apply leaves_set.
  - intros E p Hp. apply here_fget in Hp. destruct Hp as [n F]. exists n. split; auto. apply (W E p n F).
Qed.
Lemma full_balanced pts faces m0 fl whole TT D m m' : full_inv pts faces m0 fl whole TT D m m' [] ->
  mesh_history pts faces m0 m' /\ is_balanced fl m' = Ok true /\ submesh_rooted (cells m') fl.
Proof.
  intros J. pose proof (w_base _ _ _ _ _ _ _ _ _ _ J) as Jb. pose proof (b_hist _ _ _ _ _ _ _ _ Jb) as H'. split; auto. split.
  - destruct (C30_is_balanced pts faces m0 m' fl H') as [b [E Eb]]. rewrite E. f_equal. apply Eb. intros p Lp Cp.
    apply sub_leaf_set in Lp; [|destruct Lp as [n [F _]]; intros ->; discriminate]. apply (w_queue _ _ _ _ _ _ _ _ _ _ J p Lp Cp).
  - pose proof (history_minv _ _ _ _ H') as M'. apply closed_rooted; [apply (w_closed _ _ _ _ _ _ _ _ _ _ J)|apply (w_roots _ _ _ _ _ _ _ _ _ _ J)|apply (m_s _ _ _ M')].
Qed.
(** If every cell is in the submesh (in particular without a flag), the result is
    balanced for every order. *)
Theorem C29_balanced pts faces m0 m fl : mesh_history pts faces m0 m -> (forall fc, In fc faces -> convex (face_quad pts fc)) ->
  whole_mesh (cells m) fl ->
  exists bound, forall pick fuel, bound < fuel -> exists m', balance fuel pick fl m = Ok m' /\
    mesh_history pts faces m0 m' /\ is_balanced fl m' = Ok true /\ whole_mesh (cells m') fl /\ submesh_rooted (cells m') fl.
Proof.
  intros H CV W. pose proof (history_minv _ _ _ _ H) as M.
  assert (R : submesh_rooted (cells m) fl).
  { assert (HS : forall p, here m p <-> insub m fl p).
    { intros p. split; [|apply insub_here]. intros Hp. apply here_fget in Hp. destruct Hp as [n F]. exists n. split; auto. apply (W p n F). }
    pose proof (m_s _ _ _ M) as I. apply closed_rooted; auto; [constructor|intros r; apply HS].
    - intros a i Na Si. apply HS in Si. apply HS. eapply here_parent; eauto.
    - intros a i j Na Si Lj. apply HS in Si. apply HS. apply (s_fam m I a i Na Si); auto. }
  destruct (balance_core pts faces m0 m fl true H CV R (fun _ => W)) as [bound B]. exists bound. intros pick fuel Lf.
  destruct (B (fun _ => True) pick fuel Lf) as [m' [D [E J]]]; [intros; left; auto|auto|auto|]. exists m'. split; auto.
  destruct (full_balanced _ _ _ _ _ _ _ _ _ J) as [H' [Bal R']]. split; auto. split; auto. split; auto.
  intros p c F. assert (Hp : here m' p) by (apply here_fget; eauto). destruct (w_whole _ _ _ _ _ _ _ _ _ _ J eq_refl p Hp) as [c' [F' Z]]. congruence.
Qed.
Print Assumptions C29_balanced.
Corollary C29_whole_mesh pts faces m0 m : mesh_history pts faces m0 m -> (forall fc, In fc faces -> convex (face_quad pts fc)) ->
  exists bound, forall pick fuel, bound < fuel -> exists m', balance fuel pick None m = Ok m' /\
    mesh_history pts faces m0 m' /\ is_balanced None m' = Ok true.
Proof.
  intros H CV. destruct (C29_balanced pts faces m0 m None H CV) as [b B]; [intros p c _; exact Logic.I|]. exists b. intros pick fuel Lf.
  destruct (B pick fuel Lf) as [m' [? [? [? _]]]]. eauto.
Qed.
Print Assumptions C29_whole_mesh.
(** For other rooted submeshes: balanced and rooted if always one of the coarsest
    cells of the set is popped. *)
Definition coarsest_first (pick : nat -> list path -> nat) : Prop :=
  forall k q p x, nth_error q (pick k q mod length q) = Some p -> In x q -> length p <= length x.
Theorem C29_coarsest_first pts faces m0 m fl : mesh_history pts faces m0 m -> (forall fc, In fc faces -> convex (face_quad pts fc)) ->
  submesh_rooted (cells m) fl ->
  exists bound, forall pick fuel, bound < fuel -> coarsest_first pick -> exists m', balance fuel pick fl m = Ok m' /\
    mesh_history pts faces m0 m' /\ is_balanced fl m' = Ok true /\ submesh_rooted (cells m') fl.
Proof.
  intros H CV R. destruct (balance_core pts faces m0 m fl false H CV R) as [bound B]; [discriminate|]. exists bound. intros pick fuel Lf CF.
  destruct (B (fun _ => True) pick fuel Lf) as [m' [D [E J]]]; auto; [intros k q _; right; intros x p; apply CF|]. exists m'. split; auto.
  eapply full_balanced; eauto.
Qed.
Print Assumptions C29_coarsest_first.


(** both cases together *)
Lemma whole_dec (m : mesh2) fl : {whole_mesh (cells m) fl} + {~ whole_mesh (cells m) fl}.
Proof.
  destruct (forallb (fun c => if insub_dec m fl (fst c) then true else false) (ftraverse (cells m) None BreadthFirst)) eqn:EA.
  - left. intros p c F. rewrite forallb_forall in EA. assert (Ic : In (p, c) (ftraverse (cells m) None BreadthFirst)) by (apply in_ftraverse; simpl; auto).
    specialize (EA _ Ic). cbn [fst] in EA. destruct (insub_dec m fl p) as [[c' [F' L]]|]; [congruence|discriminate].
  - right. intros W. assert (X : forallb (fun c => if insub_dec m fl (fst c) then true else false) (ftraverse (cells m) None BreadthFirst) = true); [|congruence].
    apply forallb_forall. intros [p c] Ic. apply in_ftraverse in Ic. cbn [fst] in *. destruct Ic as [F _]. destruct (insub_dec m fl p) as [|N]; auto. destruct N. exists c. split; auto. apply (W p c F).
Qed.
Lemma core_any pts faces m0 m fl : mesh_history pts faces m0 m -> (forall fc, In fc faces -> convex (face_quad pts fc)) ->
  submesh_rooted (cells m) fl ->
  exists bound, forall pick fuel, bound < fuel -> whole_mesh (cells m) fl \/ coarsest_first pick ->
    exists m', balance fuel pick fl m = Ok m' /\
      forall (TT : path -> Prop), (forall p, insub m fl p -> TT p) -> (forall p, TT p -> too_coarse (face_adj faces) TT p -> forall i, i < 4 -> TT (p ++ [i])) ->
        exists w D, full_inv pts faces m0 fl w TT D m m' [].
Proof.
  intros H CV R. destruct (balance_core pts faces m0 m fl false H CV R) as [b1 B1]; [discriminate|].
  assert (W2 : exists b2, forall (TT : path -> Prop) pick fuel, b2 < fuel -> whole_mesh (cells m) fl ->
    (forall p, insub m fl p -> TT p) -> (forall p, TT p -> too_coarse (face_adj faces) TT p -> forall i, i < 4 -> TT (p ++ [i])) ->
    exists m' D, balance fuel pick fl m = Ok m' /\ full_inv pts faces m0 fl true TT D m m' []).
  { destruct (whole_dec m fl) as [W|NW]; [|exists 0; intros; contradiction].
    destruct (balance_core pts faces m0 m fl true H CV R (fun _ => W)) as [b2 B2]. exists b2. intros TT pick fuel L _. apply B2; auto. intros; left; auto. }
  destruct W2 as [b2 B2]. exists (Nat.max b1 b2). intros pick fuel Lf [W|CF].
  - destruct (B2 (fun _ => True) pick fuel ltac:(lia) W) as [m' [D [E _]]]; auto. exists m'. split; auto. intros S S1 S2.
    destruct (B2 S pick fuel ltac:(lia) W S1 S2) as [m'' [D' [E' J]]]. assert (m'' = m') by congruence. subst m''. eauto.
  - assert (Se : forall k q, q <> [] -> sel false q (pick k q mod length q)) by (intros k q _; right; intros x p; apply CF).
    destruct (B1 (fun _ => True) pick fuel ltac:(lia) Se) as [m' [D [E _]]]; auto. exists m'. split; auto. intros S S1 S2.
    destruct (B1 S pick fuel ltac:(lia) Se S1 S2) as [m'' [D' [E' J]]]. assert (m'' = m') by congruence. subst m''. eauto.
Qed.

(** The result is the least balanced extension: every set of cells that contains
    the submesh and with a cell that is too coarse also its children contains
    the result. *)
Theorem C29_least pts faces m0 m fl : mesh_history pts faces m0 m -> (forall fc, In fc faces -> convex (face_quad pts fc)) ->
  submesh_rooted (cells m) fl ->
  exists bound, forall pick fuel, bound < fuel -> whole_mesh (cells m) fl \/ coarsest_first pick -> exists m', balance fuel pick fl m = Ok m' /\
    forall (S : path -> Prop), (forall p, in_sub (cells m) fl p -> S p) ->
      (forall p, S p -> too_coarse (face_adj faces) S p -> forall i, i < 4 -> S (p ++ [i])) ->
      forall p, in_sub (cells m') fl p -> S p.
Proof.
  intros H CV R. destruct (core_any pts faces m0 m fl H CV R) as [b B]. exists b. intros pick fuel Lf L.
  destruct (B pick fuel Lf L) as [m' [E X]]. exists m'. split; auto. intros S S1 S2.
  destruct (X S S1 S2) as [w [D J]]. apply (w_least _ _ _ _ _ _ _ _ _ _ J).
Qed.
Print Assumptions C29_least.

(** So the result does not depend on the order in which cells are popped. *)
Theorem C29_order_independent pts faces m0 m fl : mesh_history pts faces m0 m -> (forall fc, In fc faces -> convex (face_quad pts fc)) ->
  submesh_rooted (cells m) fl ->
  exists bound, forall pick pick' fuel fuel', bound < fuel -> bound < fuel' ->
    whole_mesh (cells m) fl \/ (coarsest_first pick /\ coarsest_first pick') ->
    exists m' m'', balance fuel pick fl m = Ok m' /\ balance fuel' pick' fl m = Ok m'' /\
      (forall p, in_sub (cells m') fl p <-> in_sub (cells m'') fl p) /\
      (forall p, (exists c, fget (cells m') p = Some c) <-> exists c, fget (cells m'') p = Some c).
Proof.
  intros H CV R. destruct (core_any pts faces m0 m fl H CV R) as [b B]. exists b. intros pick pick' fuel fuel' Lf Lf' L.
  destruct (B pick fuel Lf) as [m' [E X]]; [tauto|]. destruct (B pick' fuel' Lf') as [m'' [E' X']]; [tauto|].
  exists m', m''. split; auto. split; auto.
  assert (G : forall x y, (exists w D, full_inv pts faces m0 fl w (fun _ => True) D m x []) ->
     (forall (TT : path -> Prop), (forall p, insub m fl p -> TT p) -> (forall p, TT p -> too_coarse (face_adj faces) TT p -> forall i, i < 4 -> TT (p ++ [i])) -> exists w D, full_inv pts faces m0 fl w TT D m y []) ->
     (forall p, in_sub (cells y) fl p -> in_sub (cells x) fl p) /\ (forall p, here y p -> here x p)).
  { intros x y [w [D J]] Y. pose proof (w_base _ _ _ _ _ _ _ _ _ _ J) as Jb.
    destruct (Y (insub x fl)) as [w' [D' J']].
    - intros p [c [F L']]. destruct (b_kept _ _ _ _ _ _ _ _ Jb p c F) as [c' [F' [_ Lk]]]. exists c'. split; auto. destruct fl as [g|]; auto. simpl in *. apply Lk; auto.
    - intros p Sp Cp i Li. destruct (insub_dec x fl (p ++ [i])) as [?|N]; auto. exfalso.
      pose proof (w_closed _ _ _ _ _ _ _ _ _ _ J) as Cl. assert (Np : p <> []) by (apply (@path_nonempty x); eapply insub_here; eauto).
      apply (w_queue _ _ _ _ _ _ _ _ _ _ J p); auto. split; auto. intros j Sj. apply N. eapply (c_sib _ Cl); eauto.
    - pose proof (w_least _ _ _ _ _ _ _ _ _ _ J') as Le. split; [exact Le|]. intros p Hp.
      destruct (b_new _ _ _ _ _ _ _ _ (w_base _ _ _ _ _ _ _ _ _ _ J') p Hp) as [Z|Z]; [apply (b_old _ _ _ _ _ _ _ _ Jb); auto|].
      eapply insub_here. apply Le. eauto. }
  assert (T1 : exists w D, full_inv pts faces m0 fl w (fun _ => True) D m m' []) by (apply X; auto).
  assert (T2 : exists w D, full_inv pts faces m0 fl w (fun _ => True) D m m'' []) by (apply X'; auto).
  destruct (G m' m'' T1 X') as [a1 a2]. destruct (G m'' m' T2 X) as [b1 b2].
  split; intros p; split; auto; rewrite <- !here_fget; auto.
Qed.
Print Assumptions C29_order_independent.

(** A balanced mesh stays as it is. *)
Theorem C29_unchanged pts faces m0 m fl : mesh_history pts faces m0 m -> submesh_rooted (cells m) fl -> is_balanced fl m = Ok true ->
  forall pick fuel, length (fget_leaves (cells m) None fl BreadthFirst) < fuel -> balance fuel pick fl m = Ok m.
Proof.
  intros H R Bal pick fuel Lf. unfold balance. rewrite (proj2 (rooted_b m fl) R). pose proof (history_minv _ _ _ _ H) as M. pose proof (m_s _ _ _ M) as I.
  set (q := map fst (fget_leaves (cells m) None fl BreadthFirst)).
  destruct (loop_ind fl (fun m' q' => m' = m /\ forall p, In p q' -> leafS (insub m fl) p) (fun _ q' => length q') (fun _ _ => True) pick) with (fuel := fuel) (m := m) (q := q) as [m' [E [-> _]]]; auto.
  - intros m1 q1 i p [-> Hq] E _. pose proof (Hq p (nth_error_In _ _ E)) as Lp. assert (Hp : here m p) by (destruct Lp; eapply insub_here; eauto).
    exists m, []. split; [|split].
    + unfold balance_step. destruct (cell_too_fine_spec I p fl Hp) as [b [Eb Sb]]. rewrite Eb. cbn [bind].
      destruct (proj1 (here_fget m p) Hp) as [n Fp]. rewrite Fp.
      assert (b = false) as ->; auto. destruct b; auto. exfalso. destruct (is_balanced_spec I fl) as [b' [Eb' Sb']]. rewrite Bal in Eb'.
      assert (T2 : two_to_one (radj m) (cells m) fl) by (apply Sb'; congruence). apply (T2 p); [apply sub_leaf_set; auto; apply (@path_nonempty m); auto|apply Sb; auto].
    + split; auto. intros x Hx. apply Hq. cbn [fold_left] in Hx. eapply in_removed; eauto.
    + cbn [fold_left]. pose proof (length_removed i q1 p E). lia.
  - split; auto. intros p Ip. apply leaves_set. auto.
  - unfold q. rewrite map_length. auto.
Qed.
Print Assumptions C29_unchanged.

(** ** What fails, and concrete cases *)
(** a program: splits and labels in sequence *)
Inductive cmd : Type := CSplit (fl : option flag) (p : path) | CMark (g : flag) (p : path).
Definition run_cmd (m : mesh2) (c : cmd) : res mesh2 :=
  match c with CSplit fl p => cell_split fl p m | CMark g p => Ok (mkMesh (hp m) (fupd p (mark_here g) (cells m))) end.
Definition run (cs : list cmd) (m : mesh2) : res mesh2 := fold_res run_cmd cs m.
Lemma run_edits cs m m' : run cs m = Ok m' -> edits m m'.
Proof.
  unfold run. revert m; induction cs as [|c cs IH]; intros m E; cbn [fold_res] in E; [injection E as <-; constructor|].
  destruct (run_cmd m c) as [m1|] eqn:E1; cbn [bind] in E; [|discriminate].
  eapply edits_trans; [eapply ed_more; [constructor|]|apply IH; exact E].
  destruct c; cbn [run_cmd] in E1; [eapply ed_split; eauto|injection E1 as <-; constructor].
Qed.
Definition grid_run (nx ny : nat) (xb yb : Q) (cs : list cmd) : res mesh2 :=
  bind (bind (rectangular2 nx ny) (mesh_of_dcel false (grid_points 0 xb 0 yb nx ny))) (run cs).
Lemma grid_run_history nx ny xb yb cs m : (0 < xb)%Q -> (0 < yb)%Q -> grid_run nx ny xb yb cs = Ok m ->
  exists m0, mesh_history (grid_points 0 xb 0 yb nx ny) (grid_faces nx ny) m0 m.
Proof.
  intros Hx Hy E. apply (grid_then nx ny 0 xb 0 yb _ m Hx Hy) in E. destruct E as [m0 [H E]]. exists m0.
  eapply history_edits; [exact H|]. eapply run_edits; eauto.
Qed.

(** The claim for every rooted submesh and every order is false: balance also pops
    cells that exist but are not in the submesh, and labels their children; the
    cells of the submesh that contain them are not looked at again. *)
Definition run_balance (nx ny : nat) (xb yb : Q) (cs : list cmd) (fuel : nat) (pick : nat -> list path -> nat) (fl : option flag) (P : mesh2 -> bool) : bool :=
  match grid_run nx ny xb yb cs with
  | Ok m => subtrees_rooted fl (cells m) && match balance fuel pick fl m with Ok m' => P m' | Err _ => false end
  | Err _ => false end.
Lemma run_balance_refutes nx ny xb yb cs fuel pick fl P : (0 < xb)%Q -> (0 < yb)%Q -> run_balance nx ny xb yb cs fuel pick fl P = true ->
  exists pts faces m0 m m', mesh_history pts faces m0 m /\ (forall fc, In fc faces -> convex (face_quad pts fc)) /\
    submesh_rooted (cells m) fl /\ balance fuel pick fl m = Ok m' /\ P m' = true.
Proof.
  intros Hx Hy E. unfold run_balance in E. destruct (grid_run nx ny xb yb cs) as [m|] eqn:EG; [|discriminate].
  apply andb_true_iff in E. destruct E as [ER E]. destruct (balance fuel pick fl m) as [m'|] eqn:EB; [|discriminate].
  destruct (grid_run_history nx ny xb yb cs m Hx Hy EG) as [m0 H]. destruct (C28_grid nx ny 0 xb 0 yb Hx Hy) as [CV _].
  exists (grid_points 0 xb 0 yb nx ny), (grid_faces nx ny), m0, m, m'. split; auto. split; auto. split; auto. apply rooted_b; auto.
Qed.
Definition unbalanced_b (fl : option flag) (m : mesh2) : bool := match is_balanced fl m with Ok b => negb b | Err _ => false end.

(** a submesh of the 2 x 2 grid, labelled 7: the second cell is refined four
    times towards a corner; then the first cell is split without the label *)
Definition cmds1 : list cmd :=
  [CMark 7 [0]; CMark 7 [1]; CMark 7 [2]; CMark 7 [3];
   CSplit (Some 7) [1]; CSplit (Some 7) [1; 3]; CSplit (Some 7) [1; 3; 1]; CSplit (Some 7) [1; 3; 1; 0]; CSplit None [0]].
(** always the cell that was added last *)
Definition last_first (k : nat) (q : list path) : nat := length q - 1.
Lemma case1 : run_balance 2 2 1 1 cmds1 1000 last_first (Some 7) (unbalanced_b (Some 7)) = true.
Proof. vm_cast_no_check (eq_refl true). Qed.
Theorem C29_submesh_refuted :
  ~ (forall pts faces m0 m fl, mesh_history pts faces m0 m -> (forall fc, In fc faces -> convex (face_quad pts fc)) ->
       submesh_rooted (cells m) fl -> forall pick fuel m', balance fuel pick fl m = Ok m' -> is_balanced fl m' = Ok true).
Proof.
  intros Z. destruct (run_balance_refutes 2 2 1 1 cmds1 1000 last_first (Some 7) _ eq_refl eq_refl case1) as [pts [faces [m0 [m [m' [H [CV [R [E U]]]]]]]]].
  unfold unbalanced_b in U. rewrite (Z pts faces m0 m (Some 7) H CV R last_first 1000 m' E) in U. discriminate.
Qed.
Print Assumptions C29_submesh_refuted.

(** For another submesh and order the result is not even rooted any more, so that
    the next call of balance raises AssertionError. *)
Definition cmds2 : list cmd :=
  [CMark 7 [0]; CMark 7 [1]; CMark 7 [2]; CMark 7 [3];
   CSplit (Some 7) [2]; CSplit (Some 7) [2; 1]; CSplit (Some 7) [2; 1; 2]; CSplit (Some 7) [2; 1; 2; 2]; CSplit (Some 7) [2; 1; 2; 2; 1];
   CSplit (Some 7) [2; 1; 2; 2; 1; 0]; CSplit None [1]; CSplit None [0]; CSplit None [3]].
Definition order2 : list path :=
  [[2;1;2;2;2]; [2;3]; [2;1;1]; [2;1;2;2;1;0;3]; [2;1;2;2;0]; [2;1;2;1]; [2;1;2;2;1;1]; [2;1;0]; [2;1;2;1;3];
   [2;1;2;2;1;0;0]; [2;1;1]; [0;2]; [2;1;1;3]; [2;2]; [2;2;1]; [2;1;1;1]; [2;1;2;2;3]; [2;2;2]; [3;0];
   [2;1;2;2;0;3]; [2;1;2;1;2]; [2;1;1;2]; [2;1;2;1;2;0]; [2;1;2;3]; [2;2;1;1]; [2;1;2;2;1;3]; [2;1;3];
   [2;1;2;2;0;1]; [2;1;2;3;1]; [2;2;3]; [3;0;0]; [3;0;2]; [3;0;3]; [2;1;2;1;0]; [2;1;2;2;0;0]; [2;1;2;2];
   [2;1;2;1;2;1]; [0;2;1]; [1]; [2;1]; [2;0]; [2;1;2;1;1]; [2;1;2;3;2]; [2;1;3;2]; [3;0;3;2]; [0;2;3]; [0];
   [0;0]; [2;0;1]; [2;1;1;0]; [2]; [2;0;2]; [3;0;1]; [0;2;2]; [2;1;2;1;2;3]; [3]; [0;3]; [2;1;2;2;0;2];
   [2;2;1;2]; [3;3]; [0;1]; [0;2]; [2;1;2;3;0]; [3;0;3;1]; [2;2;1;0]; [3;1]; [2;1;3;1]; [3;3;2]; [3;0;3;3];
   [3;0;3;3;0]; [2]; [2;0;0]; [0;2;0]; [2;2;0]; [3;0;3;0]; [2;2;1]; [2;1;2;2;1;0;2]; [2;1;2]; [2;1;2;2;1;2];
   [2;1;3;0]; [3;0]; [2;1;2;3;3]; [2;1;2;0]; [2;1;2;2;1;0;1]; [3;3;3]; [2;2;1;3]; [3;0;0]; [3;2]; [3;3;1];
   [3;0;3;0;2]; [3;0;0;1]; [3;0;3;0;1]; [3;0;3;3;3]; [2;1;3;3]; [3;0;3;3;1]; [3;0;3;3;2]; [2;2]; [3;0;0;3];
   [3;3;0]; [1;3]; [3;0;3;0;3]; [1;3;0]; [3;0;0;2]; [2;1;2;1;2;2]; [3;0;0;0]; [3;3;0;3]; [1;3;3]; [3;3;0;0]; [3];
   [2;2]; [3;3;0;1]; [2;1]; [3;0]; [3;3;0;2]; [1;3;1]; [0]; [2;0;3]; [3;0;3;0;0]; [1;3;2]].
Fixpoint position (p : path) (q : list path) : nat :=
  match q with [] => 0 | x :: r => if list_eq_dec Nat.eq_dec x p then 0 else S (position p r) end.
Definition in_order (fuel : nat) (ord : list path) (k : nat) (q : list path) : nat := position (nth (fuel - 1 - k) ord []) q.
Lemma case2 : run_balance 2 2 1 1 cmds2 200 (in_order 200 order2) (Some 7) (fun m => negb (subtrees_rooted (Some 7) (cells m))) = true.
Proof. vm_cast_no_check (eq_refl true). Qed.
Theorem C29_rooted_refuted :
  ~ (forall pts faces m0 m fl, mesh_history pts faces m0 m -> (forall fc, In fc faces -> convex (face_quad pts fc)) ->
       submesh_rooted (cells m) fl -> forall pick fuel m', balance fuel pick fl m = Ok m' -> submesh_rooted (cells m') fl).
Proof.
  intros Z. destruct (run_balance_refutes 2 2 1 1 cmds2 200 (in_order 200 order2) (Some 7) _ eq_refl eq_refl case2) as [pts [faces [m0 [m [m' [H [CV [R [E U]]]]]]]]].
  pose proof (Z pts faces m0 m (Some 7) H CV R (in_order 200 order2) 200 m' E) as R'. apply rooted_b in R'. cbv beta in U. rewrite R' in U. discriminate.
Qed.
Print Assumptions C29_rooted_refuted.

(** the hypotheses are met: both submeshes; a whole mesh that is not balanced *)
Definition coarsest (k : nat) (q : list path) : nat :=
  position (fold_left (fun a p => if length p <? length a then p else a) q (hd [] q)) q.
Lemma position_in p q : In p q -> nth_error q (position p q) = Some p /\ position p q < length q.
Proof.
  induction q as [|x q IH]; intros H; [destruct H|]. cbn [position]. destruct (list_eq_dec Nat.eq_dec x p) as [->|N]; [simpl; split; auto; lia|].
  destruct H as [->|H]; [congruence|]. destruct (IH H). simpl. split; auto. lia.
Qed.
Lemma coarsest_ok : coarsest_first coarsest.
Proof.
  intros k q p x E Ix. unfold coarsest in E. destruct q as [|y q]; [destruct Ix|].
  assert (G : forall l (a : path), let r := fold_left (fun a p => if length p <? length a then p else a) l a in
     (r = a \/ In r l) /\ length r <= length a /\ forall z, In z l -> length r <= length z).
  { induction l as [|b l IH]; intros a; cbn [fold_left]; [simpl; repeat split; auto; intros z []|].
    destruct (IH (if length b <? length a then b else a)) as [h1 [h2 h3]]. destruct (Nat.ltb_spec (length b) (length a)) as [L|L]; cbn zeta; (split; [|split]).
    - destruct h1 as [->|h1]; right; simpl; auto.
    - lia.
    - intros z [<-|Iz]; auto.
    - destruct h1 as [->|h1]; [left; auto|right; simpl; auto].
    - lia.
    - intros z [<-|Iz]; auto. lia. }
  cbn [hd] in E. destruct (G (y :: q) y) as [h1 [h2 h3]]. set (r := fold_left (fun a p => if length p <? length a then p else a) (y :: q) y) in *.
  assert (Ir : In r (y :: q)) by (destruct h1 as [->|?]; [left|]; auto). destruct (position_in r _ Ir) as [En Ln].
  rewrite Nat.mod_small in E by auto. rewrite En in E. injection E as <-. auto.
Qed.
(** balancing the first submesh coarsest first does end balanced *)
Example C29_case_submesh : coarsest_first coarsest /\ run_balance 2 2 1 1 cmds1 1000 coarsest (Some 7) (fun m => negb (unbalanced_b (Some 7) m)) = true.
Proof. split; [apply coarsest_ok|vm_cast_no_check (eq_refl true)]. Qed.
(** an unbalanced whole mesh, balanced from either end of the queue *)
Definition cmds3 : list cmd := [CSplit None [0]; CSplit None [0; 1]; CSplit None [0; 1; 2]; CSplit None [0; 1; 2; 1]].
Example C29_case_whole :
  match grid_run 2 1 2 1 cmds3 with Ok m => unbalanced_b None m | Err _ => false end = true /\
  run_balance 2 1 2 1 cmds3 1000 last_first None (fun m => negb (unbalanced_b None m)) = true /\
  run_balance 2 1 2 1 cmds3 1000 coarsest None (fun m => negb (unbalanced_b None m)) = true.
Proof. split; [|split]; vm_cast_no_check (eq_refl true). Qed.
(** is_balanced says yes for one mesh and no for another *)
Example C30_case : match grid_run 2 1 2 1 [CSplit None [0]] with Ok m => is_balanced None m | Err e => Err e end = Ok true /\
  match grid_run 2 1 2 1 cmds3 with Ok m => is_balanced None m | Err e => Err e end = Ok false.
Proof. split; [vm_cast_no_check (eq_refl (@Ok bool true))|vm_cast_no_check (eq_refl (@Ok bool false))]. Qed.
