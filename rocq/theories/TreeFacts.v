(** Proofs about the Tree model: paths, enumeration of children, traversal. *)
From Coq Require Import List Arith Bool Lia Permutation.
Import ListNotations.
From Verif Require Import Tree Forest SpecForest.
Set Implicit Arguments.

Section NodeInd.
  Variable A : Type.
  Variable P : node A -> Prop.
  Hypothesis H : forall m d ks,
    (forall i k, nth_error ks i = Some (Some k) -> P k) -> P (Node m d ks).
  Lemma node_ind' : forall n : node A, P n.
  Proof.
    fix IH 1. intros [m d ks]. apply H.
    induction ks as [|o ks IHks]; intros i k E.
    - destruct i; discriminate.
    - destruct i as [|i]; simpl in E.
      + destruct o as [k'|]; [|discriminate].
        specialize (IH k'). injection E as <-. exact IH.
      + exact (IHks i k E).
  Qed.
End NodeInd.

(** ** set_nth *)
Lemma set_nth_length {X} i (x : X) l : length (set_nth i x l) = length l.
Proof. revert i; induction l as [|y l IH]; intros [|i]; simpl; auto. Qed.
Lemma nth_set_nth_eq {X} i (x : X) l : i < length l -> nth_error (set_nth i x l) i = Some x.
Proof. revert i; induction l as [|y l IH]; intros [|i] H; simpl in *; try lia; auto. apply IH; lia. Qed.
Lemma nth_set_nth_neq {X} i j (x : X) l : i <> j -> nth_error (set_nth i x l) j = nth_error l j.
Proof. revert i j; induction l as [|y l IH]; intros [|i] [|j] H; simpl in *; try lia; auto. Qed.
Lemma set_nth_oob {X} i (x : X) l : length l <= i -> set_nth i x l = l.
Proof. revert i; induction l as [|y l IH]; intros [|i] H; simpl in *; try lia; auto. rewrite IH; auto; lia. Qed.
Lemma set_nth_same {X} i (x : X) l : nth_error l i = Some x -> set_nth i x l = l.
Proof. revert i; induction l as [|y l IH]; intros [|i] H; simpl in *; try discriminate; auto.
  - congruence.
  - rewrite IH; auto. Qed.
Lemma set_nth_twice {X} i (x y : X) l : set_nth i x (set_nth i y l) = set_nth i x l.
Proof. revert i; induction l as [|z l IH]; intros [|i]; simpl; auto. rewrite IH; auto. Qed.

Lemma nth_error_ext {X} (l l' : list X) : (forall i, nth_error l i = nth_error l' i) -> l = l'.
Proof.
  revert l'; induction l as [|x l IH]; intros [|y l'] H; auto.
  - specialize (H 0); discriminate.
  - specialize (H 0); discriminate.
  - f_equal; [specialize (H 0); simpl in H; congruence|]. apply IH. intro i. apply (H (S i)).
Qed.

(** ** nget / nupd *)
Lemma nget_app {A} (n : node A) p q :
  nget n (p ++ q) = match nget n p with Some k => nget k q | None => None end.
Proof.
  revert n; induction p as [|i p IH]; intro n; simpl; auto.
  destruct (nth_error (n_slots n) i) as [[k|]|]; auto.
Qed.

Lemma nget_snoc {A} (n : node A) p i :
  nget n (p ++ [i]) = match nget n p with
                      | Some k => match nth_error (n_slots k) i with Some (Some c) => Some c | _ => None end
                      | None => None end.
Proof. rewrite nget_app; destruct (nget n p); auto. Qed.

Lemma nget_nupd_same {A} p (g : node A -> node A) n :
  nget (nupd p g n) p = option_map g (nget n p).
Proof.
  revert n; induction p as [|i p IH]; intros [m d ks]; simpl; auto.
  destruct (nth_error ks i) as [[k|]|] eqn:E; simpl; try (rewrite E; auto).
  rewrite nth_set_nth_eq; auto.
  apply nth_error_Some; congruence.
Qed.

(** below the updated node *)
Lemma nget_nupd_below {A} p q (g : node A -> node A) n :
  nget (nupd p g n) (p ++ q) =
  match nget n p with Some k => nget (g k) q | None => None end.
Proof. rewrite nget_app, nget_nupd_same. destruct (nget n p); auto. Qed.


(** off the path of the updated node: the very same subtree *)
Lemma nget_nupd_off {A} p q (g : node A -> node A) n :
  ~ prefix p q -> ~ prefix q p -> nget (nupd p g n) q = nget n q.
Proof.
  revert q n; induction p as [|i p IH]; intros q n H1 H2.
  - exfalso; apply H1; exists q; auto.
  - destruct q as [|j q]; [exfalso; apply H2; exists (i::p); auto|].
    destruct n as [m d ks]; simpl.
    destruct (nth_error ks i) as [[k|]|] eqn:E; simpl; auto.
    destruct (Nat.eq_dec i j) as [->|Hij].
    + rewrite nth_set_nth_eq by (apply nth_error_Some; congruence). rewrite E.
      apply IH.
      * intros [r ->]; apply H1; exists r; auto.
      * intros [r ->]; apply H2; exists r; auto.
    + rewrite nth_set_nth_neq; auto.
Qed.

Definition obs {A} (n : node A) : meta * A * list bool := (n_meta n, n_data n, slot_shape (n_slots n)).
Definition nobs {A} (n : node A) (p : path) : option (meta * A * list bool) :=
  option_map obs (nget n p).

Lemma slot_shape_set {A} i (k k' : node A) ks :
  nth_error ks i = Some (Some k) -> slot_shape (set_nth i (Some k') ks) = slot_shape ks.
Proof.
  intro E. apply nth_error_ext; intro j. unfold slot_shape. rewrite !nth_error_map.
  destruct (Nat.eq_dec i j) as [->|H].
  - rewrite nth_set_nth_eq by (apply nth_error_Some; congruence). rewrite E; auto.
  - rewrite nth_set_nth_neq; auto.
Qed.

(** strict ancestors of the updated node keep their own attributes *)
Lemma nobs_nupd_above {A} p i r (g : node A -> node A) n :
  nobs (nupd (p ++ i :: r) g n) p = nobs n p.
Proof.
  unfold nobs. revert n; induction p as [|j p IH]; intros [m d ks]; simpl.
  - destruct (nth_error ks i) as [[k|]|] eqn:E; simpl; auto.
    unfold obs; simpl. erewrite slot_shape_set; eauto.
  - destruct (nth_error ks j) as [[k|]|] eqn:E; simpl; try (rewrite E; auto).
    rewrite nth_set_nth_eq by (apply nth_error_Some; congruence). apply IH.
Qed.

Lemma prefix_dec p q : {prefix p q} + {~ prefix p q}.
Proof.
  revert q; induction p as [|i p IH]; intro q.
  - left; exists q; auto.
  - destruct q as [|j q]; [right; intros [r E]; discriminate|].
    destruct (Nat.eq_dec i j) as [->|H].
    + destruct (IH q) as [H|H]; [left|right].
      * destruct H as [r ->]; exists r; auto.
      * intros [r E]; apply H; exists r; simpl in E; congruence.
    + right; intros [r E]; simpl in E; congruence.
Qed.

Lemma prefix_refl p : prefix p p.
Proof. exists []; rewrite app_nil_r; auto. Qed.
Lemma prefix_trans p q r : prefix p q -> prefix q r -> prefix p r.
Proof. intros [a ->] [b ->]; exists (a ++ b); rewrite app_assoc; auto. Qed.
Lemma prefix_antisym p q : prefix p q -> prefix q p -> p = q.
Proof. intros [a ->] [b E]. rewrite <- app_assoc in E.
  rewrite <- (app_nil_r p) in E at 1. apply app_inv_head in E.
  destruct a; [rewrite app_nil_r; auto|discriminate]. Qed.
Lemma prefix_app p q : prefix p (p ++ q). Proof. exists q; auto. Qed.
Lemma prefix_length p q : prefix p q -> length p <= length q.
Proof. intros [r ->]; rewrite app_length; lia. Qed.
Lemma prefix_nil p : prefix [] p. Proof. exists p; auto. Qed.
Lemma prefix_linear a b p : prefix a p -> prefix b p -> prefix a b \/ prefix b a.
Proof.
  intros [r ->] [s E]. revert b E; induction a as [|x a IH]; intros b E.
  - left; apply prefix_nil.
  - destruct b as [|y b]; [right; apply prefix_nil|].
    injection E as -> E. destruct (IH b E) as [[t ->]|[t ->]]; [left|right]; exists t; auto.
Qed.

(** A label-only change of one object *)
Definition keeps_slots {A} (g : node A -> node A) :=
  forall n, n_slots (g n) = n_slots n.

Lemma nget_nupd_meta {A} p q (g : node A -> node A) n :
  keeps_slots g ->
  nobs (nupd p g n) q =
    if list_eq_dec Nat.eq_dec p q then option_map obs (option_map g (nget n p))
    else nobs n q.
Proof.
  intro Hg. destruct (list_eq_dec Nat.eq_dec p q) as [->|Hpq].
  - unfold nobs; rewrite nget_nupd_same; auto.
  - destruct (prefix_dec p q) as [[r ->]|H1].
    + unfold nobs. rewrite nget_nupd_below, nget_app.
      destruct (nget n p) as [k|]; auto.
      destruct r as [|i r]; [rewrite app_nil_r in Hpq; congruence|].
      simpl. rewrite Hg; auto.
    + destruct (prefix_dec q p) as [[r ->]|H2].
      * destruct r as [|i r]; [rewrite app_nil_r in Hpq; congruence|].
        apply nobs_nupd_above.
      * unfold nobs; rewrite nget_nupd_off; auto.
Qed.

(** two trees with equal observations everywhere are equal *)
Lemma nobs_ext {A} (n n' : node A) : (forall p, nobs n p = nobs n' p) -> n = n'.
Proof.
  revert n'. induction n as [m d ks IH] using node_ind'; intros [m' d' ks'] H.
  pose proof (H []) as H0. unfold nobs, obs in H0; simpl in H0. injection H0 as Em Ed Es.
  subst m' d'. f_equal. apply nth_error_ext; intro i.
  assert (Ei : nth_error (slot_shape ks) i = nth_error (slot_shape ks') i) by congruence.
  unfold slot_shape in Ei. rewrite !nth_error_map in Ei.
  destruct (nth_error ks i) as [[k|]|] eqn:E1;
  destruct (nth_error ks' i) as [[k'|]|] eqn:E2; simpl in Ei; try discriminate; auto.
  do 2 f_equal. eapply IH; eauto. intro p.
  specialize (H (i :: p)). unfold nobs in H; simpl in H. rewrite E1, E2 in H; auto.
Qed.

(** ** Children enumeration *)
Lemma in_enum_kids {A} (ks : list (option (node A))) j i k :
  In (i, k) (enum_kids j ks) <-> j <= i /\ nth_error ks (i - j) = Some (Some k).
Proof.
  revert j; induction ks as [|[k0|] ks IH]; intro j; simpl.
  - split; [tauto|]. intros [_ E]; destruct (i - j); discriminate.
  - split.
    + intros [E|E].
      * injection E as -> ->. rewrite Nat.sub_diag; auto.
      * apply IH in E. destruct E as [E1 E2]; split; [lia|].
        replace (i - j) with (S (i - S j)) by lia; auto.
    + intros [E1 E2]. destruct (Nat.eq_dec i j) as [->|H].
      * rewrite Nat.sub_diag in E2; simpl in E2; left; congruence.
      * right; apply IH; split; [lia|].
        replace (i - j) with (S (i - S j)) in E2 by lia; auto.
  - rewrite IH. split.
    + intros [E1 E2]; split; [lia|]. replace (i - j) with (S (i - S j)) by lia; auto.
    + intros [E1 E2]. destruct (Nat.eq_dec i j) as [->|H].
      * rewrite Nat.sub_diag in E2; simpl in E2; discriminate.
      * split; [lia|]. replace (i - j) with (S (i - S j)) in E2 by lia; auto.
Qed.

Lemma in_kids_of {A} p (n : node A) q k :
  In (q, k) (kids_of p n) <-> exists i, q = p ++ [i] /\ nth_error (n_slots n) i = Some (Some k).
Proof.
  unfold kids_of. rewrite in_map_iff. split.
  - intros [[i k'] [E H]]. injection E as <- <-. apply in_enum_kids in H.
    destruct H as [_ H]; rewrite Nat.sub_0_r in H. eauto.
  - intros [i [-> H]]. exists (i, k); split; auto. apply in_enum_kids.
    rewrite Nat.sub_0_r; split; auto; lia.
Qed.

Lemma enum_kids_nodup {A} (ks : list (option (node A))) j : NoDup (map fst (enum_kids j ks)).
Proof.
  revert j; induction ks as [|[k0|] ks IH]; intro j; simpl; auto; constructor; auto.
  rewrite in_map_iff. intros [[i k] [E H]]. simpl in E; subst i.
  apply in_enum_kids in H; lia.
Qed.

Lemma has_children_spec {A} (n : node A) fl :
  has_children n fl = true <->
  exists i k, nth_error (n_slots n) i = Some (Some k) /\
    match fl with None => True | Some _ => is_marked k fl = true end.
Proof.
  unfold has_children. rewrite existsb_exists. split.
  - intros [[k|] [H1 H2]]; [|discriminate]. apply In_nth_error in H1. destruct H1 as [i Hi].
    exists i, k; split; auto. destruct fl; auto.
  - intros [i [k [H1 H2]]]. exists (Some k); split; [eapply nth_error_In; eauto|].
    destruct fl; auto.
Qed.

Lemma kids_of_nil {A} p (n : node A) : has_children n None = false -> kids_of p n = [].
Proof.
  intro H. destruct (kids_of p n) as [|[q k] l] eqn:E; auto.
  assert (I : In (q, k) (kids_of p n)) by (rewrite E; left; auto).
  apply in_kids_of in I. destruct I as [i [_ Hi]].
  assert (has_children n None = true) by (apply has_children_spec; eauto). congruence.
Qed.

Lemma get_children_none {A} p (n : node A) r :
  get_children p n None r = if r then rev (kids_of p n) else kids_of p n.
Proof.
  unfold get_children. destruct (has_children n None) eqn:E; auto.
  rewrite (kids_of_nil p n E). destruct r; auto.
Qed.

Lemma get_children_some {A} p (n : node A) f :
  get_children p n (Some f) false = filter (fun c => is_marked (snd c) (Some f)) (kids_of p n).
Proof.
  unfold get_children. destruct (has_children n (Some f)) eqn:E; auto.
  symmetry.
  destruct (filter (fun c => is_marked (snd c) (Some f)) (kids_of p n)) as [|[q k] l] eqn:EF; auto.
  assert (I : In (q, k) (filter (fun c => is_marked (snd c) (Some f)) (kids_of p n)))
    by (rewrite EF; left; auto).
  apply filter_In in I. destruct I as [I1 I2]. apply in_kids_of in I1. destruct I1 as [i [_ Hi]].
  assert (has_children n (Some f) = true) by (apply has_children_spec; eauto). congruence.
Qed.

(** ** Specification of the traversal orders *)
Fixpoint preorder {A} (p : path) (n : node A) {struct n} : list (path * node A) :=
  match n with
  | Node m d ks =>
    (p, n) ::
    (fix go i (l : list (option (node A))) : list (path * node A) :=
       match l with
       | [] => []
       | None :: r => go (S i) r
       | Some k :: r => preorder (p ++ [i]) k ++ go (S i) r
       end) 0 ks
  end.

Lemma preorder_eq {A} p (n : node A) :
  preorder p n = (p, n) :: flat_map (fun c => preorder (fst c) (snd c)) (kids_of p n).
Proof.
  destruct n as [m d ks]. simpl. f_equal. unfold kids_of; simpl.
  generalize 0. induction ks as [|[k|] ks IH]; intro i; simpl; auto.
  rewrite IH; auto.
Qed.

(** nodes at relative depth [k], left to right *)
Fixpoint nodes_at {A} (k : nat) (p : path) (n : node A) : list (path * node A) :=
  match k with
  | 0 => [(p, n)]
  | S k' => flat_map (fun c => nodes_at k' (fst c) (snd c)) (kids_of p n)
  end.
Fixpoint height {A} (n : node A) : nat :=
  let 'Node _ _ ks := n in
  S (fold_right (fun o s => match o with Some k => Nat.max (height k) s | None => s end) 0 ks).
Definition level_order {A} (p : path) (n : node A) : list (path * node A) :=
  flat_map (fun k => nodes_at k p n) (seq 0 (height n)).

(** ** Membership *)
Lemma in_preorder {A} (n : node A) p q k :
  In (q, k) (preorder p n) <-> exists r, q = p ++ r /\ nget n r = Some k.
Proof.
  revert p q k. induction n as [m d ks IH] using node_ind'; intros p q k.
  rewrite preorder_eq. simpl. rewrite in_flat_map. split.
  - intros [E|[[q' k'] [H1 H2]]].
    + injection E as <- <-. exists []; rewrite app_nil_r; auto.
    + apply in_kids_of in H1. destruct H1 as [i [-> Hi]]. simpl in *.
      apply (IH i k' Hi) in H2. destruct H2 as [r [-> Hr]].
      exists (i :: r); split; [rewrite <- app_assoc; auto|]. simpl; rewrite Hi; auto.
  - intros [r [-> Hr]]. destruct r as [|i r].
    + left; simpl in Hr; rewrite app_nil_r; congruence.
    + right. simpl in Hr. destruct (nth_error ks i) as [[k'|]|] eqn:Hi; try discriminate.
      exists (p ++ [i], k'); split; [apply in_kids_of; eauto|]. simpl.
      apply (IH i k' Hi). exists r; split; auto. rewrite <- app_assoc; auto.
Qed.

Lemma nodup_app {X} (l l' : list X) :
  NoDup l -> NoDup l' -> (forall x, In x l -> ~ In x l') -> NoDup (l ++ l').
Proof.
  induction l as [|x l IH]; intros H1 H2 H3; simpl; auto.
  inversion H1 as [|? ? Hx Hl]; subst. constructor.
  - rewrite in_app_iff; intros [I|I]; auto. eapply H3; eauto; left; auto.
  - apply IH; auto. intros y Hy; apply H3; right; auto.
Qed.

Lemma nodup_flat_map {X Y} (g : X -> list Y) l :
  NoDup l -> (forall x, In x l -> NoDup (g x)) ->
  (forall x x' y, In x l -> In x' l -> In y (g x) -> In y (g x') -> x = x') ->
  NoDup (flat_map g l).
Proof.
  induction l as [|x l IH]; intros H1 H2 H3; simpl; [constructor|].
  inversion H1 as [|? ? Hx Hl]; subst.
  apply nodup_app.
  - apply H2; left; auto.
  - apply IH; auto.
    + intros; apply H2; right; auto.
    + intros; eapply H3; eauto; right; auto.
  - intros y Hy Hy'. apply in_flat_map in Hy'. destruct Hy' as [x' [I1 I2]].
    assert (x = x') by (eapply H3; eauto; [left|right]; auto). subst; auto.
Qed.

Lemma map_flat_map {X Y Z} (h : Y -> Z) (g : X -> list Y) l :
  map h (flat_map g l) = flat_map (fun x => map h (g x)) l.
Proof. induction l; simpl; auto. rewrite map_app, IHl; auto. Qed.

Lemma in_preorder_path {A} p (n : node A) q :
  In q (map fst (preorder p n)) <-> exists r k, q = p ++ r /\ nget n r = Some k.
Proof.
  rewrite in_map_iff. split.
  - intros [[q' k] [E H]]; simpl in E; subst q'. apply in_preorder in H.
    destruct H as [r H]; eauto.
  - intros [r [k H]]. exists (q, k); split; auto. apply in_preorder; eauto.
Qed.

Lemma kids_of_nodup {A} p (n : node A) : NoDup (kids_of p n).
Proof.
  unfold kids_of. apply FinFun.Injective_map_NoDup.
  - intros [i k] [i' k'] E; simpl in E. injection E as E1 E2.
    apply app_inv_head in E1. congruence.
  - eapply NoDup_map_inv. apply enum_kids_nodup.
Qed.

Lemma preorder_nodup {A} p (n : node A) : NoDup (map fst (preorder p n)).
Proof.
  revert p. induction n as [m d ks IH] using node_ind'; intro p.
  rewrite preorder_eq; simpl. constructor.
  - rewrite in_map_iff. intros [[q k] [E H]]. simpl in E; subst q.
    apply in_flat_map in H. destruct H as [[q' k'] [H1 H2]].
    apply in_kids_of in H1. destruct H1 as [i [-> _]]. simpl in H2.
    apply in_preorder in H2. destruct H2 as [r [E _]].
    rewrite <- app_assoc in E. rewrite <- (app_nil_r p) in E at 1.
    apply app_inv_head in E; discriminate.
  - rewrite map_flat_map. apply nodup_flat_map.
    + apply kids_of_nodup.
    + intros [q k] H. apply in_kids_of in H. destruct H as [i [-> Hi]]. eapply IH; eauto.
    + intros [q k] [q' k'] y H H' Hy Hy'.
      apply in_kids_of in H. destruct H as [i [-> Hi]].
      apply in_kids_of in H'. destruct H' as [i' [-> Hi']]. simpl in *.
      apply in_preorder_path in Hy. destruct Hy as [r [c [-> _]]].
      apply in_preorder_path in Hy'. destruct Hy' as [r' [c' [E _]]].
      rewrite <- !app_assoc in E. apply app_inv_head in E. simpl in E.
      injection E as -> _. congruence.
Qed.

Lemma in_nodes_at {A} k p (n : node A) q c :
  In (q, c) (nodes_at k p n) <-> exists r, length r = k /\ q = p ++ r /\ nget n r = Some c.
Proof.
  revert p n q c; induction k as [|k IH]; intros p n q c; simpl.
  - split.
    + intros [E|[]]. injection E as <- <-. exists []; rewrite app_nil_r; auto.
    + intros [r [E [-> H]]]. destruct r; [|discriminate]. simpl in H.
      rewrite app_nil_r; left; congruence.
  - rewrite in_flat_map. split.
    + intros [[q' k'] [H1 H2]]. apply in_kids_of in H1. destruct H1 as [i [-> Hi]].
      simpl in H2. apply IH in H2. destruct H2 as [r [El [-> Hr]]].
      exists (i :: r); split; [simpl; auto|]. split; [rewrite <- app_assoc; auto|].
      simpl; rewrite Hi; auto.
    + intros [r [El [-> Hr]]]. destruct r as [|i r]; [discriminate|]. simpl in *.
      destruct (nth_error (n_slots n) i) as [[k'|]|] eqn:Hi; try discriminate.
      exists (p ++ [i], k'); split; [apply in_kids_of; eauto|]. simpl. apply IH.
      exists r; split; [lia|]. split; auto. rewrite <- app_assoc; auto.
Qed.

Lemma height_kid {A} m (d : A) ks i k :
  nth_error ks i = Some (Some k) -> height k < height (Node m d ks).
Proof.
  simpl. revert i; induction ks as [|o ks IH]; intros [|i] H; simpl in *; try discriminate.
  - injection H as ->. lia.
  - apply IH in H. destruct o; lia.
Qed.

Lemma height_nget {A} (n : node A) r c : nget n r = Some c -> length r + height c <= height n.
Proof.
  revert r c. induction n as [m d ks IH] using node_ind'; intros [|i r] c H.
  - simpl in H. injection H as <-. auto.
  - simpl in H. destruct (nth_error ks i) as [[k'|]|] eqn:Hi; try discriminate.
    apply (IH i k' Hi) in H. apply (height_kid m d ks i) in Hi. simpl length. lia.
Qed.

Lemma height_pos {A} (n : node A) : 0 < height n.
Proof. destruct n; simpl; lia. Qed.

Lemma in_level_order {A} p (n : node A) q c :
  In (q, c) (level_order p n) <-> exists r, q = p ++ r /\ nget n r = Some c.
Proof.
  unfold level_order. rewrite in_flat_map. split.
  - intros [k [_ H]]. apply in_nodes_at in H. destruct H as [r [_ H]]; eauto.
  - intros [r [-> H]]. exists (length r). split.
    + apply in_seq. pose proof (height_nget _ _ H); pose proof (height_pos c); lia.
    + apply in_nodes_at; eauto.
Qed.

Lemma nodes_at_nodup {A} k p (n : node A) : NoDup (map fst (nodes_at k p n)).
Proof.
  revert p n; induction k as [|k IH]; intros p n; simpl.
  - constructor; auto; constructor.
  - rewrite map_flat_map. apply nodup_flat_map; auto.
    + apply kids_of_nodup.
    + intros [q c] [q' c'] y H H' Hy Hy'.
      apply in_kids_of in H. destruct H as [i [-> Hi]].
      apply in_kids_of in H'. destruct H' as [i' [-> Hi']]. simpl in *.
      apply in_map_iff in Hy. destruct Hy as [[y1 e1] [<- Hy]].
      apply in_map_iff in Hy'. destruct Hy' as [[y2 e2] [E Hy']]. simpl in *; subst y2.
      apply in_nodes_at in Hy. destruct Hy as [r [_ [-> _]]].
      apply in_nodes_at in Hy'. destruct Hy' as [r' [_ [E _]]].
      rewrite <- !app_assoc in E. apply app_inv_head in E. simpl in E.
      injection E as -> _. congruence.
Qed.

Lemma level_order_nodup {A} p (n : node A) : NoDup (map fst (level_order p n)).
Proof.
  unfold level_order. rewrite map_flat_map. apply nodup_flat_map.
  - apply seq_NoDup.
  - intros; apply nodes_at_nodup.
  - intros k k' y _ _ Hy Hy'.
    apply in_map_iff in Hy. destruct Hy as [[y1 e1] [<- Hy]].
    apply in_map_iff in Hy'. destruct Hy' as [[y2 e2] [E Hy']]. simpl in *; subst y2.
    apply in_nodes_at in Hy. destruct Hy as [r [<- [-> _]]].
    apply in_nodes_at in Hy'. destruct Hy' as [r' [<- [E _]]].
    apply app_inv_head in E; congruence.
Qed.

(** ** The queue loop *)
Lemma fold_left_snoc {X} (l q : list X) : fold_left (fun q c => q ++ [c]) l q = q ++ l.
Proof.
  revert q; induction l as [|x l IH]; intro q; simpl; [rewrite app_nil_r; auto|].
  rewrite IH, <- app_assoc; auto.
Qed.

Lemma size_eq {A} p (n : node A) :
  size n = S (list_sum (map (fun c => size (snd c)) (kids_of p n))).
Proof.
  destruct n as [m d ks]. simpl. f_equal. unfold kids_of; simpl. rewrite map_map; simpl.
  assert (G : forall i, fold_right (fun o s => match o with Some k => size k + s | None => s end) 0 ks
     = list_sum (map (fun x : nat * node A => size (snd x)) (enum_kids i ks))).
  { induction ks as [|[k|] ks IH]; intro i; simpl; auto. }
  apply G.
Qed.

Definition qsize {A} (q : list (path * node A)) : nat := list_sum (map (fun c => size (snd c)) q).

Lemma qsize_app {A} (q q' : list (path * node A)) : qsize (q ++ q') = qsize q + qsize q'.
Proof. unfold qsize. rewrite map_app, list_sum_app; auto. Qed.
Lemma qsize_rev {A} (q : list (path * node A)) : qsize (rev q) = qsize q.
Proof.
  induction q as [|c q IH]; simpl; auto. rewrite qsize_app, IH.
  change (qsize (c :: q)) with (size (snd c) + qsize q).
  change (qsize [c]) with (size (snd c) + 0). lia.
Qed.

Definition keep {A} (fl : option flag) (l : list (path * node A)) : list (path * node A) :=
  match fl with None => l | Some _ => filter (fun c => is_marked (snd c) fl) l end.

Lemma keep_app {A} fl (l l' : list (path * node A)) : keep fl (l ++ l') = keep fl l ++ keep fl l'.
Proof. destruct fl; simpl; auto. apply filter_app. Qed.
Lemma keep_cons {A} fl (c : path * node A) l :
  keep fl (c :: l) = match fl with
                     | None => c :: keep fl l
                     | Some _ => if is_marked (snd c) fl then c :: keep fl l else keep fl l end.
Proof. destruct fl; simpl; auto. Qed.

Lemma trav_dfs {A} fuel fl (q : list (path * node A)) :
  qsize q < fuel ->
  trav fuel DepthFirst fl q =
  keep fl (flat_map (fun c => preorder (fst c) (snd c)) (rev q)).
Proof.
  revert q; induction fuel as [|fuel IH]; intros q H; [lia|].
  cbn [trav]. unfold pop_right.
  destruct (rev q) as [|[p n] r] eqn:E.
  - simpl. destruct fl; auto.
  - assert (Hq : qsize q = size n + qsize r).
    { rewrite <- qsize_rev, E. auto. }
    assert (Hc : (if has_children n None then
              fold_left (fun q c => q ++ [c]) (get_children p n None true) (rev r) else rev r)
              = rev r ++ rev (kids_of p n)).
    { destruct (has_children n None) eqn:Eh.
      - rewrite fold_left_snoc, get_children_none; auto.
      - rewrite (kids_of_nil p n Eh). simpl; rewrite app_nil_r; auto. }
    rewrite Hc. rewrite IH.
    2:{ rewrite qsize_app, !qsize_rev. rewrite Hq, (size_eq p n) in H.
        change (list_sum (map (fun c => size (snd c)) (kids_of p n))) with (qsize (kids_of p n)) in H.
        lia. }
    rewrite rev_app_distr, !rev_involutive. cbn [flat_map fst snd].
    rewrite flat_map_app, preorder_eq. simpl app.
    rewrite keep_cons. destruct fl; auto.
Qed.

(** level-wise unfolding of a queue *)
Definition lv {A} (k : nat) (q : list (path * node A)) :=
  flat_map (fun c => nodes_at k (fst c) (snd c)) q.
Lemma lv_app {A} k (q q' : list (path * node A)) : lv k (q ++ q') = lv k q ++ lv k q'.
Proof. apply flat_map_app. Qed.
Lemma lv_S {A} k p (n : node A) : lv (S k) [(p, n)] = lv k (kids_of p n).
Proof. unfold lv; simpl. rewrite app_nil_r; auto. Qed.
Lemma lv_0 {A} (q : list (path * node A)) : lv 0 q = q.
Proof. unfold lv. induction q as [|[p n] q IH]; simpl in *; auto. rewrite IH; auto. Qed.

Definition levels {A} (N : nat) (q : list (path * node A)) := flat_map (fun k => lv k q) (seq 0 N).

Lemma levels_S {A} N (q : list (path * node A)) : levels (S N) q = levels N q ++ lv N q.
Proof. unfold levels. rewrite seq_S, flat_map_app. simpl. rewrite app_nil_r; auto. Qed.

Lemma levels_pop {A} N p (n : node A) q :
  levels N ((p, n) :: q) ++ lv N [(p, n)] = (p, n) :: levels N (q ++ kids_of p n).
Proof.
  change ((p, n) :: q) with ([(p, n)] ++ q).
  induction N as [|N IH].
  - simpl; auto.
  - rewrite !levels_S. rewrite !lv_app.
    rewrite <- (lv_S N p n).
    rewrite app_comm_cons, <- IH. rewrite <- !app_assoc. auto.
Qed.

Lemma nodes_at_high {A} k p (n : node A) : height n <= k -> nodes_at k p n = [].
Proof.
  intro H. destruct (nodes_at k p n) as [|[q c] l] eqn:E; auto.
  assert (I : In (q, c) (nodes_at k p n)) by (rewrite E; left; auto).
  apply in_nodes_at in I. destruct I as [r [<- [_ Hr]]].
  apply height_nget in Hr. pose proof (height_pos c); lia.
Qed.

Lemma lv_nil {A} k (q : list (path * node A)) :
  (forall c, In c q -> height (snd c) <= k) -> lv k q = [].
Proof.
  intro H. unfold lv. induction q as [|c q IH]; simpl; auto.
  rewrite IH, nodes_at_high; auto.
  - apply H; left; auto.
  - intros; apply H; right; auto.
Qed.

Lemma levels_more {A} N (q : list (path * node A)) k :
  (forall c, In c q -> height (snd c) <= N) -> levels (N + k) q = levels N q.
Proof.
  intro H. induction k as [|k IH]; [rewrite Nat.add_0_r; auto|].
  rewrite Nat.add_succ_r, levels_S, IH, lv_nil, app_nil_r; auto.
  intros c Hc; specialize (H c Hc); lia.
Qed.

Lemma trav_bfs {A} fuel fl N (q : list (path * node A)) :
  qsize q < fuel -> (forall c, In c q -> height (snd c) <= N) ->
  trav fuel BreadthFirst fl q = keep fl (levels N q).
Proof.
  revert q; induction fuel as [|fuel IH]; intros q H HN; [lia|].
  cbn [trav]. unfold pop_left. destruct q as [|[p n] q].
  - assert (E : levels N (@nil (path * node A)) = []).
    { unfold levels. induction (seq 0 N); simpl; auto. }
    rewrite E. destruct fl; auto.
  - assert (Hc : (if has_children n None then
              fold_left (fun q c => q ++ [c]) (get_children p n None false) q else q)
              = q ++ kids_of p n).
    { destruct (has_children n None) eqn:Eh.
      - rewrite fold_left_snoc, get_children_none; auto.
      - rewrite (kids_of_nil p n Eh), app_nil_r; auto. }
    rewrite Hc, IH.
    + pose proof (levels_pop N p n q) as E.
      assert (E0 : lv N [(p, n)] = []).
      { apply lv_nil. intros c [<-|[]]. apply (HN (p, n)); left; auto. }
      rewrite E0, app_nil_r in E. rewrite E, keep_cons. destruct fl; auto.
    + change (qsize ((p, n) :: q)) with (size n + qsize q) in H.
      rewrite qsize_app. rewrite (size_eq p n) in H.
      change (list_sum (map (fun c => size (snd c)) (kids_of p n))) with (qsize (kids_of p n)) in H.
      lia.
    + intros c Hin. apply in_app_iff in Hin. destruct Hin as [Hin|Hin].
      * apply HN; right; auto.
      * destruct c as [q' k]. apply in_kids_of in Hin. destruct Hin as [i [_ Hi]].
        destruct n as [m d ks]. cbn [n_slots] in Hi. apply (height_kid m d) in Hi.
        specialize (HN (p, Node m d ks) (or_introl eq_refl)). cbn [snd] in *. lia.
Qed.

Theorem traverse_dfs {A} p (n : node A) fl : traverse p n fl DepthFirst = keep fl (preorder p n).
Proof.
  unfold traverse. rewrite trav_dfs.
  - simpl. rewrite app_nil_r; auto.
  - unfold qsize; simpl; lia.
Qed.
Theorem traverse_bfs {A} p (n : node A) fl : traverse p n fl BreadthFirst = keep fl (level_order p n).
Proof.
  unfold traverse. rewrite trav_bfs with (N := height n).
  - f_equal. unfold levels, level_order, lv. apply flat_map_ext. intro k; simpl.
    rewrite app_nil_r; auto.
  - unfold qsize; simpl; lia.
  - intros c [<-|[]]; auto.
Qed.

Lemma keep_in {A} fl (l : list (path * node A)) c :
  In c (keep fl l) <-> In c l /\ match fl with None => True | Some _ => is_marked (snd c) fl = true end.
Proof. destruct fl; simpl; [rewrite filter_In|]; tauto. Qed.

Lemma nodup_map_filter {X Y} (h : X -> Y) g l : NoDup (map h l) -> NoDup (map h (filter g l)).
Proof.
  induction l as [|x l IH]; simpl; intro H; auto. inversion H; subst.
  destruct (g x); simpl; auto. constructor; auto.
  rewrite in_map_iff in *. intros [y [E I]]. apply filter_In in I. apply H2; exists y; tauto.
Qed.
Lemma keep_nodup {A} fl (l : list (path * node A)) :
  NoDup (map fst l) -> NoDup (map fst (keep fl l)).
Proof. destruct fl; simpl; auto. apply nodup_map_filter. Qed.
