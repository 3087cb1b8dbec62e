(** * C75: depth of a mesh, nearest ancestors, containment of cells, locate_point *)
From Coq Require Import List Arith Bool Lia QArith.
Import ListNotations.
From Verif Require Import Tree Forest SpecForest History TreeFacts ForestFacts LabelFacts RootFacts
  PlaceFacts Geom SpecGeom QuadGeomFacts Locate Prop_Bin Examples.
Open Scope nat_scope.

Lemma fold_max_le l : forall d x, x <= d \/ (exists y, In y l /\ x <= y) -> x <= fold_left Nat.max l d.
Proof.
  induction l as [|z l IH]; intros d x H; cbn [fold_left].
  - destruct H as [H|[y [[] _]]]; auto.
  - apply IH. destruct H as [H|[y [[->|Hy] H]]]; eauto; left; lia.
Qed.
Lemma fold_max_in l : forall d, fold_left Nat.max l d = d \/ In (fold_left Nat.max l d) l.
Proof.
  induction l as [|y l IH]; intros d; cbn [fold_left]; auto.
  destruct (IH (Nat.max d y)) as [H|H]; [|right; right; exact H].
  rewrite H. destruct (Nat.max_dec d y) as [E|E]; rewrite E; auto. right; left; auto.
Qed.
Lemma fold_ltb {X} (g : X -> nat) l : forall d, fold_left (fun cur t => if cur <? g t then g t else cur) l d = fold_left Nat.max (map g l) d.
Proof.
  induction l as [|y l IH]; intros d; cbn [fold_left map]; auto. rewrite IH. f_equal.
  destruct (Nat.ltb_spec d (g y)); lia.
Qed.

(** ** depth *)
Definition deep {A} (b : nat) (n : node A) : Prop := forall r k, nget n r = Some k -> m_depth (n_meta k) = b + length r.
Lemma depth_all {A} (n : node A) : forall b, deep b n ->
  (forall r k, nget n r = Some k -> b + length r <= tree_depth_all n) /\
  (exists r k, nget n r = Some k /\ tree_depth_all n = b + length r).
Proof.
  induction n as [m d ks IH] using node_ind'; intros b D.
  assert (D0 : m_depth m = b) by (specialize (D [] _ eq_refl); cbn in D; lia).
  assert (Dk : forall i k, nth_error ks i = Some (Some k) -> deep (S b) k).
  { intros i k E r k' E'. specialize (D (i :: r) k'). cbn [nget n_slots] in D. rewrite E in D. rewrite (D E'). cbn [length]. lia. }
  cbn [tree_depth_all]. rewrite D0. split.
  - intros r k E. apply fold_max_le. destruct r as [|i r]; [left; cbn [length]; lia|]. right.
    cbn [nget n_slots] in E. destruct (nth_error ks i) as [[c|]|] eqn:Ei; try discriminate.
    pose proof (proj1 (IH i c Ei (S b) (Dk i c Ei)) r k E) as Hle. exists (tree_depth_all c). split.
    + apply in_map_iff. exists (Some c). split; auto. eapply nth_error_In; eauto.
    + cbn [length]. lia.
  - destruct (fold_max_in (map (fun o : option (node A) => match o with Some k => tree_depth_all k | None => 0 end) ks) b) as [E|E].
    + exists [], (Node m d ks). split; auto. rewrite E. cbn. lia.
    + apply in_map_iff in E. destruct E as [[c|] [E Hc]].
      * apply In_nth_error in Hc. destruct Hc as [i Ei]. destruct (proj2 (IH i c Ei (S b) (Dk i c Ei))) as [r [k [Er Et]]].
        exists (i :: r), k. cbn [nget n_slots]. rewrite Ei. split; auto. rewrite <- E, Et. cbn [length]. lia.
      * exists [], (Node m d ks). split; auto. rewrite <- E. pose proof (fold_max_le (map (fun o : option (node A) => match o with Some k => tree_depth_all k | None => 0 end) ks) b b (or_introl (Nat.le_refl b))). rewrite <- E in H. cbn. lia.
Qed.
Lemma tree_depth_none {A} (n : node A) : tree_depth n None = tree_depth_all n.
Proof.
  destruct n as [m d ks]. unfold tree_depth. cbn [tree_depth_all n_meta]. unfold get_children, kids_of.
  destruct (has_children (Node m d ks) None) eqn:E; cbn [n_slots].
  - rewrite map_map. cbn [snd]. generalize (m_depth m). generalize 0 at 1. clear E. induction ks as [|[k|] ks IH]; intros j b; cbn [enum_kids map fold_left]; auto.
    rewrite Nat.max_0_r. auto.
  - rewrite has_children_false in E. cbn [n_slots] in E.
    assert (E' : forall i k, nth_error ks i = Some (Some k) -> False) by (intros i k Ei; apply (E i k Ei); exact Logic.I).
    clear E. revert E'. generalize (m_depth m). induction ks as [|[k|] ks IH]; intros b E'; cbn [map fold_left]; auto.
    + destruct (E' 0 k eq_refl).
    + rewrite Nat.max_0_r. apply IH. intros i k Ei. apply (E' (S i) k Ei).
Qed.
Lemma fdepth_max {A} (f : forest A) : fdepth f = fold_left Nat.max (map tree_depth_all f) 0.
Proof.
  unfold fdepth. cbv zeta. rewrite (fold_ltb (fun t => tree_depth t None)). f_equal. apply map_ext. intro. apply tree_depth_none.
Qed.

(** After any history of API calls, depth() of a non-empty forest is the largest
    depth of its nodes (roots have depth 0); tree_depth() likewise for one tree. *)
Theorem C75_depth {A} (kid : nat -> nat -> A -> A) (l : list op) f : run kid [] l = Ok f ->
  (forall i r n, fget f (i :: r) = Some n -> length r <= fdepth f) /\
  (f <> [] -> exists i r n, fget f (i :: r) = Some n /\ fdepth f = length r) /\
  (f = [] -> fdepth f = 0).
Proof.
  intros E. assert (P : fplaced f) by (eapply run_placed; eauto; intros j t Ej; destruct j; discriminate).
  assert (Dp : forall i t, nth_error f i = Some t -> deep 0 t).
  { intros i t Et r k Ek. destruct (P i t Et) as [H _]. apply (H r k Ek). }
  rewrite fdepth_max. split; [|split].
  - intros i r n En. cbn [fget] in En. destruct (nth_error f i) as [t|] eqn:Et; [|discriminate].
    apply fold_max_le. right. exists (tree_depth_all t). split; [apply in_map; eapply nth_error_In; eauto|].
    apply (proj1 (depth_all t 0 (Dp i t Et)) r n En).
  - intros Hf. destruct (fold_max_in (map tree_depth_all f) 0) as [H|H].
    + destruct f as [|t f']; [congruence|]. exists 0, [], t. split; auto.
    + apply in_map_iff in H. destruct H as [t [H Ht]]. apply In_nth_error in Ht. destruct Ht as [i Et].
      destruct (proj2 (depth_all t 0 (Dp i t Et))) as [r [k [Ek Ed]]]. exists i, r, k. cbn [fget]. rewrite Et. split; auto. rewrite <- H. auto.
  - intros ->. reflexivity.
Qed.
Print Assumptions C75_depth.
Theorem C75_tree_depth {A} (kid : nat -> nat -> A -> A) (l : list op) f i r t : run kid [] l = Ok f -> fget f (i :: r) = Some t ->
  (forall s n, fget f ((i :: r) ++ s) = Some n -> length (r ++ s) <= tree_depth t None) /\
  (exists s n, fget f ((i :: r) ++ s) = Some n /\ tree_depth t None = length (r ++ s)).
Proof.
  intros E Et. assert (P : fplaced f) by (eapply run_placed; eauto; intros j t' Ej; destruct j; discriminate).
  assert (G : forall s, fget f ((i :: r) ++ s) = nget t s) by (intros s; rewrite fget_app, Et; reflexivity).
  assert (D : deep (length r) t).
  { intros s k Ek. rewrite <- G in Ek. cbn [app fget] in Ek. destruct (nth_error f i) as [t0|] eqn:E0; [|discriminate].
    destruct (P i t0 E0) as [H _]. rewrite (proj1 (H _ _ Ek)). apply app_length. }
  rewrite tree_depth_none. destruct (depth_all t (length r) D) as [H1 H2]. split.
  - intros s n Es. rewrite G in Es. rewrite app_length. eauto.
  - destruct H2 as [s [k [Ek Ed]]]. exists s, k. rewrite G, app_length. auto.
Qed.
Print Assumptions C75_tree_depth.
(** with a flag, tree_depth looks only at the children of the first level that
    carry it: an unmarked node below a marked child counts *)
Theorem C75_tree_depth_flag_refuted : exists l (f : forest unit) t, run ukid [] l = Ok f /\ fget f [0] = Some t /\
  tree_depth t (Some 5) = 2 /\ (forall r n, fget f (0 :: r) = Some n -> is_marked n (Some 5) = true -> length r <= 1).
Proof.
  exists [OAddTree 2 tt; OSplit [0]; OSplit [0; 0]; OMark [0] 5; OMark [0; 0] 5].
  eexists. eexists. split; [vm_compute; reflexivity|]. split; [vm_compute; reflexivity|]. split; [reflexivity|].
  intros r n E M. destruct r as [|a [|b r]]; cbn [length]; try lia. exfalso.
  destruct a as [|[|[|a]]]; try discriminate; cbn in E; destruct b as [|[|[|b]]]; try discriminate.
  - cbn in E. destruct r; [injection E as <-; discriminate|]. cbn in E. destruct n0 as [|[|[|?]]]; discriminate.
  - cbn in E. destruct r; [injection E as <-; discriminate|]. cbn in E. destruct n0 as [|[|[|?]]]; discriminate.
Qed.
Print Assumptions C75_tree_depth_flag_refuted.

(** ** nearest_ancestor *)
Lemma find_split {X} (g : X -> bool) l x : find g l = Some x -> exists l1 l2, l = l1 ++ x :: l2 /\ g x = true /\ forall y, In y l1 -> g y = false.
Proof.
  induction l as [|y l IH]; cbn [find]; [discriminate|]. destruct (g y) eqn:E.
  - intros H; injection H as ->. exists [], l. repeat split; auto. intros z [].
  - intros H. destruct (IH H) as [l1 [l2 [-> [H1 H2]]]]. exists (y :: l1), l2. repeat split; auto. intros z [<-|Hz]; auto.
Qed.
Lemma anc_after n : forall p l1 a l2 b, p :: anc_up n p = l1 ++ a :: l2 -> In b l2 -> length b < length a.
Proof.
  induction n as [|n IH]; intros p l1 a l2 b E Hb; cbn [anc_up] in E.
  - destruct l1 as [|x [|y l1]]; cbn in E; try discriminate. injection E as <- <-. destruct Hb.
  - destruct l1 as [|x l1]; cbn [app] in E.
    + injection E as <- <-. apply (anc_up_shorter (S n)). exact Hb.
    + injection E as <- E. destruct (removelast p) as [|y c] eqn:Ep.
      * destruct l1; discriminate.
      * rewrite <- Ep in E. apply (IH (removelast p) l1 a l2 b); auto.
Qed.
Lemma prefix_shorter p : forall a b : path, prefix a p -> prefix b p -> length b <= length a -> prefix b a.
Proof.
  intros a b [r Hr] [s Hs] L. exists (skipn (length b) a).
  assert (E : b = firstn (length b) a).
  { assert (firstn (length b) p = b) by (rewrite Hs; rewrite firstn_app, Nat.sub_diag, firstn_all; cbn; apply app_nil_r).
    rewrite <- H at 1. rewrite Hr, firstn_app. replace (length b - length a) with 0 by lia. cbn. apply app_nil_r. }
  rewrite E at 1. symmetry. apply firstn_skipn.
Qed.
(** nearest_ancestor returns the deepest node on the way from the node up to its
    root (the node included) that carries the flag, None if there is none. *)
Theorem C75_nearest_ancestor {A} (f : forest A) (p : path) (s : flag) : p <> [] ->
  (forall a, nearest_ancestor f p (Some s) = Some a ->
     a <> [] /\ prefix a p /\ (exists n, fget f a = Some n /\ is_marked n (Some s) = true) /\
     forall b n, b <> [] -> prefix b p -> fget f b = Some n -> is_marked n (Some s) = true -> prefix b a) /\
  (nearest_ancestor f p (Some s) = None ->
     forall b n, b <> [] -> prefix b p -> fget f b = Some n -> is_marked n (Some s) = false) /\
  nearest_ancestor f p None = Some p.
Proof.
  intros Hp. split; [|split; [|reflexivity]].
  - intros a E. unfold nearest_ancestor in E. apply find_split in E. destruct E as [l1 [l2 [El [Ea Hl]]]].
    assert (Ia : In a (p :: ancestors p)) by (rewrite El; apply in_or_app; right; left; auto).
    apply (@self_or_anc p a Hp) in Ia. destruct Ia as [Na Pa]. split; auto. split; auto. split.
    + destruct (fget f a) as [n|]; [|discriminate]. eauto.
    + intros b n Nb Pb En Mn. assert (Ib : In b (p :: ancestors p)) by (apply (@self_or_anc p b Hp); auto).
      rewrite El in Ib. apply in_app_or in Ib. destruct Ib as [Ib|[<-|Ib]].
      * apply Hl in Ib. rewrite En in Ib. congruence.
      * exists []. rewrite app_nil_r; auto.
      * apply (prefix_shorter p a b Pa Pb). pose proof (anc_after _ _ _ _ _ _ El Ib). lia.
  - intros E b n Nb Pb En. unfold nearest_ancestor in E. pose proof (find_none _ _ E b) as F. cbv beta in F. rewrite En in F. apply F. apply (@self_or_anc p b Hp); auto.
Qed.
Print Assumptions C75_nearest_ancestor.

(** ** contains *)
Lemma prefix_len p q : prefix p q -> length p <= length q.
Proof. intros [r ->]. rewrite app_length. lia. Qed.
Lemma removelast_len (q : path) : q <> [] -> S (length (removelast q)) = length q.
Proof. intros H. rewrite (app_removelast_last 0 H) at 2. rewrite app_length. cbn. lia. Qed.
Lemma prefix_removelast p q : q <> [] -> (prefix p q <-> p = q \/ prefix p (removelast q)).
Proof.
  intros H. split.
  - intros [r E]. destruct r as [|x r] using rev_ind; [left; rewrite E, app_nil_r; auto|].
    right. exists r. rewrite E, app_assoc, removelast_last. auto.
  - intros [->|[r E]]; [exists []; rewrite app_nil_r; auto|]. exists (r ++ [last q 0]). rewrite app_assoc, <- E. apply app_removelast_last; auto.
Qed.
Lemma climb_eq_spec k : forall p q, length q <= k -> (climb_eq k p q = true <-> p <> q /\ prefix p q).
Proof.
  induction k as [|k IH]; intros p q L; cbn [climb_eq].
  - destruct q; cbn in L; [|lia]. split; [discriminate|]. intros [H [r E]]. symmetry in E. apply app_eq_nil in E. destruct E as [E _]. congruence.
  - destruct (Nat.ltb_spec (length p) (length q)) as [H|H].
    + assert (Hq : q <> []) by (intros ->; cbn in H; lia).
      cbv zeta. pose proof (removelast_len q Hq). rewrite (prefix_removelast p q Hq).
      destruct (list_eq_dec Nat.eq_dec p (removelast q)) as [e|e].
      * split; auto. intros _. split; [intros ->; lia|]. right. rewrite <- e. exists []. rewrite app_nil_r; auto.
      * rewrite IH by lia. split; [intros [H1 H2]; split; auto; intros ->; lia|]. intros [H1 [H2|H2]]; [congruence|auto].
    + split; [discriminate|]. intros [N [r E]]. exfalso. destruct r; [rewrite app_nil_r in E; congruence|].
      rewrite E, app_length in H. cbn in H. lia.
Qed.
(** p.contains(q) holds exactly when q is p or a descendant of p *)
Theorem C75_contains (p q : path) : contains p q = true <-> exists r, q = p ++ r.
Proof.
  unfold contains. fold (prefix p q). destruct (Nat.ltb_spec (length q) (length p)) as [H|H].
  - split; [discriminate|]. intros P. apply prefix_len in P. lia.
  - destruct (list_eq_dec Nat.eq_dec p q) as [->|N].
    + split; auto. intros _. exists []. rewrite app_nil_r; auto.
    + rewrite climb_eq_spec by auto. tauto.
Qed.
Print Assumptions C75_contains.

(** ** locate_point *)
(** locate_point returns the first root cell that contains the point (and carries
    the flag, if one is given); None exactly when no such root cell exists *)
Theorem C75_locate_point_partial (tol : Q) (f : forest quad) (x : pt) (fl : option flag) :
  let hit t := (forall s, fl = Some s -> is_marked t (Some s) = true) /\ qcontains tol (n_data t) x = true in
  (forall q, locate_point tol f x fl = Some q ->
     exists i t, q = [i] /\ nth_error f i = Some t /\ hit t /\
       forall j t', j < i -> nth_error f j = Some t' -> ~ hit t') /\
  (locate_point tol f x fl = None <-> forall t, In t f -> ~ hit t).
Proof.
  intros hit. unfold locate_point. cbn [fget_children].
  set (g := fun c : path * node quad => match fl with
            | Some _ => is_marked (snd c) fl && qcontains tol (n_data (snd c)) x
            | None => qcontains tol (n_data (snd c)) x end).
  assert (G : forall q t, g (q, t) = true <-> hit t).
  { intros q t. unfold g, hit. cbn [snd]. destruct fl as [s|].
    - rewrite andb_true_iff. split; intros [H1 H2]; split; auto. intros s' E; injection E as <-; auto.
    - split; [intros H; split; auto; discriminate|tauto]. }
  split.
  - intros q E. destruct (find g (roots f)) as [[q' t]|] eqn:F; [|discriminate]. injection E as <-. cbn [fst].
    apply find_split in F. destruct F as [l1 [l2 [El [Ht Hl]]]].
    assert (I0 : In (q', t) (roots f)) by (rewrite El; apply in_or_app; right; left; auto).
    pose proof I0 as I1. apply in_roots in I1. destruct I1 as [i [-> Et]]. exists i, t. split; auto. split; auto. split; [apply (G [i] t); auto|].
    intros j t' L Ej Ht'. apply (G [j] t') in Ht'.
    assert (Ij : In ([j], t') (roots f)) by (apply in_roots; eauto).
    rewrite El in Ij. apply in_app_or in Ij. destruct Ij as [Ij|[Ij|Ij]].
    + apply Hl in Ij. exact (eq_true_false_abs _ Ht' Ij).
    + injection Ij as -> <-. lia.
    + assert (M : map fst (roots f) = map fst l1 ++ [i] :: map fst l2) by (rewrite El, map_app; reflexivity).
      assert (M' : map fst (roots f) = map (fun k => [k]) (seq 0 (length f))).
      { unfold roots. rewrite map_map. cbn [fst]. clear. generalize 0. induction f as [|t f IH]; intros k; cbn [index_from map length seq]; auto. rewrite IH. reflexivity. }
      rewrite M' in M. assert (In [j] (map fst l2)) by (apply in_map_iff; exists ([j], t'); auto).
      apply In_nth_error in H. destruct H as [u Hu].
      assert (N1 : nth_error (map (fun k => [k]) (seq 0 (length f))) (length l1) = Some [i]).
      { rewrite M, nth_error_app2; rewrite map_length; [|lia]. rewrite Nat.sub_diag. reflexivity. }
      assert (N2 : nth_error (map (fun k => [k]) (seq 0 (length f))) (length l1 + S u) = Some [j]).
      { rewrite M, nth_error_app2; rewrite map_length; [|lia]. replace (length l1 + S u - length l1) with (S u) by lia. exact Hu. }
      assert (V : forall a b, nth_error (map (fun k => [k]) (seq 0 (length f))) a = Some [b] -> a = b).
      { intros a b N. rewrite nth_error_map in N. destruct (nth_error (seq 0 (length f)) a) as [c|] eqn:Ec; [|discriminate]. injection N as <-.
        assert (a < length f) by (rewrite <- (seq_length (length f) 0); apply nth_error_Some; congruence).
        apply (nth_error_nth _ _ 0) in Ec. rewrite seq_nth in Ec by auto. lia. }
      apply V in N1. apply V in N2. lia.
  - split.
    + intros E t Ht Hh. destruct (find g (roots f)) as [c|] eqn:F; [discriminate|].
      apply In_nth_error in Ht. destruct Ht as [i Et].
      pose proof (find_none _ _ F ([i], t)) as N. assert (g ([i], t) = true) by (apply G; auto).
      rewrite N in H; [discriminate|]. apply in_roots; eauto.
    + intros H. destruct (find g (roots f)) as [[q t]|] eqn:F; [|reflexivity].
      apply find_some in F. destruct F as [Hi Hg]. apply in_roots in Hi. destruct Hi as [i [_ Et]].
      apply G in Hg. destruct (H t); auto. eapply nth_error_In; eauto.
Qed.
Print Assumptions C75_locate_point_partial.
(** ... so on a refined mesh it is not the smallest cell containing the point, nor
    the smallest flagged one, and a flagged cell that is no root is not found *)
Theorem C75_locate_smallest_refuted : let tol := (1 # 10000000000)%Q in let x := (7 # 8, 7 # 8)%Q : pt in
  run qkid [] sq_ops = Ok sq_f /\
  locate_point tol sq_f x None = Some [0] /\
  (exists c, fget sq_f [0; 2; 2] = Some c /\ qcontains tol (n_data c) x = true) /\
  (exists f' c, run qkid [] (sq_ops ++ [OMark [0; 2; 2] 7]) = Ok f' /\ fget f' [0; 2; 2] = Some c /\ is_marked c (Some 7) = true /\
     qcontains tol (n_data c) x = true /\ locate_point tol f' x (Some 7) = None).
Proof.
  cbv zeta. split; [exact sq_run|]. split; [vm_compute; reflexivity|]. split.
  - eexists. split; [vm_compute; reflexivity|]. vm_compute. reflexivity.
  - eexists. eexists. split; [vm_compute; reflexivity|]. split; [vm_compute; reflexivity|]. split; [reflexivity|]. split; vm_compute; reflexivity.
Qed.
Print Assumptions C75_locate_smallest_refuted.

(** concrete cases *)
Example C75_case :
  fdepth ex_f = 3 /\
  nearest_ancestor ex_f [1; 0; 1; 0] (Some 1) = Some [1; 0; 1; 0] /\ nearest_ancestor ex_f [1; 0; 1; 1] (Some 1) = None /\
  nearest_ancestor (fupd [1; 0] (mark_here 1) ex_f) [1; 0; 1; 1] (Some 1) = Some [1; 0] /\
  contains [1; 0] [1; 0; 1; 0] = true /\ contains [1; 1] [1; 0; 1; 0] = false /\ contains [1; 0; 1] [1; 0] = false.
Proof. vm_compute. repeat split. Qed.
Example C75_locate_case : let tol := (1 # 10000000000)%Q in
  locate_point tol sq_f (5 # 2, 1 # 4)%Q None = Some [1] /\ locate_point tol sq_f (1, 1 # 4)%Q None = Some [0] /\
  locate_point tol sq_f (5 # 2, 3 # 4)%Q None = None.
Proof. vm_compute. repeat split. Qed.
