(** * Hanging nodes: where they are (for C51, C52) *)
From Coq Require Import List Arith Bool Lia QArith Lqa Permutation.
From Verif Require Import Tree Forest Geom SpecGeom Dcel SpecDcel Quad SpecForest TreeFacts ForestFacts QuadFacts QuadSplit QuadInv SpecQuad QuadNb
  DcelFacts QuadInit QuadUniq QuadStart QuadCoords QuadHist Prop_QuadMesh BalSets Prop_Balance Fem SpecFem ShapeFacts Prop_Inherit Dof SpecDof DofFacts DofInv Dof2 SpecDof2
  SurfFacts Node2Facts VertNb Surf2 Dof2Facts Dof2Hist Solver Hang SpecHang HangRef HangRun.
Import ListNotations.
Open Scope nat_scope.

Lemma st_rev e i : torn e = false -> i < ns e -> srev e i < ns e /\ (st e (srev e i) == 1 - st e i)%Q.
Proof.
  intros T L. unfold ns in *. destruct e; try discriminate T; cbn [dpe Nat.add] in *;
    do 4 (destruct i as [|i]; [first [exfalso; lia | split; [cbn; lia|vm_compute; reflexivity]]|]); lia.
Qed.
Lemma nd2_pos' e : 0 < nd2 e.
Proof. destruct e; cbv; lia. Qed.
Lemma half_side j c t : j < 4 -> c < 2 -> peq (quarter ((j + c) mod 4) (side_pt j t)) (side_pt j ((halfQ c + t) * (1 # 2))).
Proof.
  intros L Lc. destruct c as [|[|c]]; [| |lia].
  - rewrite Nat.add_0_r, Nat.mod_small by auto. eapply peq_t; [apply quarter_first; auto|]. apply side_peq. cbn. lra.
  - eapply peq_t; [apply quarter_second; auto|]. apply side_peq. unfold halfQ. cbn [Nat.eqb]. lra.
Qed.
Definition nonnode (e : elem) (x : pt) : Prop := forall j, j < nd2 e -> ~ peq x (node2 e j).
Lemma nonnode_corner e x c : torn e = false -> nonnode e x -> c < 4 -> ~ peq x (corner c).
Proof.
  intros T N L E. destruct (node2_corner e c T L) as [Ln Ec]. apply (N c Ln). eapply peq_t; [exact E|apply peq_s; auto].
Qed.
Lemma nonnode_side e x k l t u : torn e = false -> nonnode e x -> k < 4 -> l < 4 -> (0 <= t <= 1)%Q -> (0 <= u <= 1)%Q ->
  peq x (side_pt k t) -> peq x (side_pt l u) -> k = l.
Proof.
  intros T N Lk Ll Ht Hu E1 E2. destruct (Nat.eq_dec k l) as [|Ne]; auto. exfalso.
  assert (X : peq (side_pt k t) (side_pt l u)) by (eapply peq_t; [apply peq_s; exact E1|exact E2]).
  assert (Z : (t == 0 \/ t == 1)%Q).
  { destruct Ht, Hu. destruct X as [X1 X2]. clear - Lk Ll Ne X1 X2 H H0 H1 H2. four k; four l; pts'; try (exfalso; apply Ne; reflexivity);
      first [ left; lra | right; lra | exfalso; lra ]. }
  destruct Z as [Z|Z].
  - apply (nonnode_corner e x k T N Lk). eapply peq_t; [exact E1|]. eapply peq_t; [apply (side_peq k t 0 Z)|apply side_0; auto].
  - apply (nonnode_corner e x ((k + 1) mod 4) T N); [apply Nat.mod_upper_bound; lia|]. eapply peq_t; [exact E1|]. eapply peq_t; [apply (side_peq k t 1 Z)|apply side_1; auto].
Qed.

Section geo.
Context (order : list nat -> list nat) (pts : list pt) (faces : list (list nat)) (m : mesh2) (e : elem) (s : dofs) (sf : option flag).
Hypothesis PO : forall l, Permutation (order l) l.
Hypothesis QF : quad_faces faces.
Hypothesis M : minv pts faces m.
Hypothesis Hcont : torn e = false.
Hypothesis R : submesh_rooted (cells m) sf.
Hypothesis FILL : forall p, in_sub (cells m) sf p -> complete e s p.
Hypothesis WF : wf (nd2 e) s.
Hypothesis CL : classes (same faces e) s.
Hypothesis TT : two_to_one (face_adj faces) (cells m) sf.
Let I := m_s _ _ _ M.
Local Notation adj := (face_adj faces).
Local Notation ins := (in_sub (cells m) sf).
Local Notation leaf := (sub_leaf (cells m) sf).
Local Notation dn := (dofn s).
Local Notation prod := (prod order faces m e s sf).
Local Notation n := (nd2 e).

Lemma leaf_ins p : leaf p -> ins p.
Proof. intros [x [F [H _]]]. exists x. auto. Qed.
Lemma leaf_here p : leaf p -> here m p.
Proof. intro H. eapply insub_here. apply leaf_ins; auto. Qed.
Lemma ins_ne p : ins p -> p <> [].
Proof. intro H. eapply path_nonempty. eapply insub_here. eauto. Qed.
Lemma leaf_top p i : leaf p -> ~ ins (p ++ [i]).
Proof. intros H. pose proof (ins_ne p (leaf_ins p H)) as N. apply (sub_leaf_set (cells m) sf p N) in H. apply H. Qed.
Lemma ins_prefix p r : p <> [] -> ins (p ++ r) -> ins p.
Proof.
  intro N. induction r as [|i r IH] using rev_ind; [rewrite app_nil_r; auto|]. rewrite app_assoc. intro H. apply IH. eapply (ins_up pts faces m sf M R); [|exact H].
  destruct p; [congruence|discriminate].
Qed.
Lemma leaf_below p r : leaf p -> ins (p ++ r) -> r = [].
Proof.
  intros H S. destruct r as [|i r]; auto. exfalso. apply (leaf_top p i H). apply (ins_prefix _ r); [destruct p; discriminate|].
  rewrite <- app_assoc. auto.
Qed.
Lemma eqdof p k q j : ins p -> ins q -> k < n -> j < n -> (dn p k = dn q j <-> same faces e (p, k) (q, j)).
Proof.
  intros Sp Sq Lk Lj. apply CL; apply (slot_dofn m e s sf FILL); auto.
Qed.
Lemma nb_same p k q j q' j' : here m p -> here m q -> here m q' -> nb adj p k q j -> nb adj p k q' j' -> q = q' /\ j = j'.
Proof.
  intros Hp Hq Hq' N N'. destruct (nb_lt pts faces m QF M _ _ _ _ N) as [Lk Lj]. destruct (nb_lt pts faces m QF M _ _ _ _ N') as [_ Lj'].
  pose proof (proj2 (twin_iff pts faces m QF M _ _ _ _ Hp Hq Lk Lj) N) as E1. pose proof (proj2 (twin_iff pts faces m QF M _ _ _ _ Hp Hq' Lk Lj') N') as E2.
  apply (QuadInv.side_inj I); auto. congruence.
Qed.
(** a node of a cell is a node of every finer cell that has the point *)
Lemma node_finer p q k x : here m p -> here m q -> length q <= length p -> k < n -> unit_pt x ->
  glued adj (place p x) (place q (node2 e k)) -> exists j, j < n /\ peq x (node2 e j).
Proof.
  intros Hp Hq L Lk U G. pose proof (path_nonempty q Hq) as Nq.
  destruct (cut_path p (length q)) as [a [r [E [La Na]]]]; auto; [destruct q; [congruence|cbn; lia]|]. subst p.
  rewrite place_app in G by auto. assert (Ha : here m a) by (eapply here_prefix; eauto).
  assert (X : exists j, j < n /\ peq (in_root r x) (node2 e j)).
  { destruct (surf_level pts faces m QF M a q La Ha Hq (in_root r x) (node2 e k) (unit_root r x U) (nodes2_unit e k) G) as [[_ Ex]|[S|V]].
    - exists k. auto.
    - destruct S as [a' [b [t [N [Ht [E1 E2]]]]]]. destruct (nb_lt pts faces m QF M _ _ _ _ N) as [La' Lb].
      destruct (side_node_sn e b k (1 - t) Hcont Lb Lk E2) as [i [Li [_ Et]]]. destruct (st_rev e i Hcont Li) as [Lr Er].
      exists (sn e a' (srev e i)). split; [apply sn_lt; auto|]. eapply peq_t; [exact E1|]. apply peq_s. eapply peq_t; [apply sn_node; auto|]. apply side_peq. lra.
    - destruct V as [c [d [Lc [Ld [E1 _]]]]]. destruct (node2_corner e c Hcont Lc) as [Ln Ec]. exists c. split; auto. eapply peq_t; [exact E1|apply peq_s; auto]. }
  destruct X as [j [Lj Ex]]. destruct r as [|i r]; [cbn [in_root] in Ex; eauto|].
  destruct (in_ancestor e Hcont (i :: r) j x) as [i' [j' [k' [_ [_ [Lk' Ek]]]]]]; auto; [discriminate| |eauto].
  apply Forall_forall. intros z Hz. apply in_split in Hz. destruct Hz as [l1 [l2 Ez]]. rewrite Ez in Hp.
  eapply (here_digits pts faces m M _ Hp z l2 (a ++ l1)); [rewrite <- app_assoc; auto|destruct a; [congruence|discriminate]].
Qed.
Lemma nonnode_finer p q k x : here m p -> here m q -> k < n -> unit_pt x -> nonnode e x -> glued adj (place p x) (place q (node2 e k)) -> length p < length q.
Proof.
  intros Hp Hq Lk U NN G. destruct (le_lt_dec (length q) (length p)) as [L|L]; auto. exfalso.
  destruct (node_finer p q k x Hp Hq L Lk U G) as [j [Lj E]]. apply (NN j Lj E).
Qed.
(** where an entry comes from *)
Definition source (d : nat) (p : path) (k : nat) (q : path) (j c l : nat) : Prop :=
  leaf p /\ nb adj p k q j /\ ins q /\ leaf (q ++ [(j + c) mod 4]) /\ c < 2 /\ l < ns e /\
  d = dn (q ++ [(j + c) mod 4]) (sn e j l) /\ ~ (exists i, i < ns e /\ (htime e c l == st e i)%Q).
Lemma child_leaf p k q j x c : leaf p -> nb adj p k q j -> ins (q ++ [x]) -> c < 2 -> leaf (q ++ [(j + c) mod 4]).
Proof.
  intros Lp N Sx Lc. destruct (nb_nonempty _ _ _ _ _ N) as [_ Nq]. destruct (nb_lt pts faces m QF M _ _ _ _ N) as [_ Lj].
  assert (Sc : ins (q ++ [(j + c) mod 4])) by (eapply (ins_sib pts faces m sf M R); eauto; apply Nat.mod_upper_bound; lia).
  apply sub_leaf_set; [destruct q; discriminate|]. split; auto. intros z Sz. apply (TT p Lp).
  exists k, q, j, ((j + c) mod 4), z. split; auto. split; [eapply (ins_up pts faces m sf M R); eauto|]. split; [eauto|]. split; [|rewrite app2; auto].
  unfold touches. destruct c as [|[|c]]; [left; rewrite Nat.add_0_r, Nat.mod_small; auto|right; auto|lia].
Qed.
Lemma prod_source y : prod y -> exists p k q j c l, source (fst y) p k q j c l.
Proof.
  intros [p [k [q [j [x [c [v [Lp [N [Sq [Sx [Lc [Hv [E0 [l [Ll [E1 ->]]]]]]]]]]]]]]]]]. cbn [fst].
  destruct (nb_lt pts faces m QF M _ _ _ _ N) as [_ Lj]. exists p, k, q, j, c, l. split; auto. split; auto. split; auto. split; [eapply child_leaf; eauto|].
  split; auto. split; auto. split; auto. destruct (hang_v e j c v Hcont Lj Lc Hv E0) as [l' [Ll' [E1' [_ NT]]]].
  assert (El : sn e j l = sn e j l') by congruence. assert (l = l'); [|subst; auto].
  assert (P : peq (side_pt j (st e l)) (side_pt j (st e l'))).
  { eapply peq_t; [apply peq_s; apply (sn_node e j l Hcont Lj Ll)|]. rewrite El. apply sn_node; auto. }
  apply (side_inj_t j) in P; auto. clear - P Ll Ll' Hcont. unfold ns in *. destruct e; try discriminate Hcont; cbn [dpe Nat.add] in *;
    (do 4 (destruct l as [|l]; [do 4 (destruct l' as [|l']; [try reflexivity; try (exfalso; lia); exfalso; revert P; vm_compute; discriminate|]); lia|]); lia).
Qed.
Lemma source_geo d p k q j c l : source d p k q j c l ->
  let x := side_pt k (1 - htime e c l) in k < 4 /\ j < 4 /\ unit_pt x /\ (0 <= 1 - htime e c l <= 1)%Q /\ nonnode e x /\
  ins (q ++ [(j + c) mod 4]) /\ sn e j l < n /\ length (q ++ [(j + c) mod 4]) = S (length p) /\
  glued adj (place p x) (place (q ++ [(j + c) mod 4]) (node2 e (sn e j l))).
Proof.
  intros [Lp [N [Sq [Lf [Lc [Ll [-> NT]]]]]]] x. destruct (nb_lt pts faces m QF M _ _ _ _ N) as [Lk Lj]. destruct (nb_nonempty _ _ _ _ _ N) as [_ Nq].
  pose proof (htime_unit e c l Hcont Lc Ll) as HT. assert (HT' : (0 <= 1 - htime e c l <= 1)%Q) by (destruct HT; split; lra).
  split; auto. split; auto. split; [apply unit_side; auto|]. split; auto. split.
  { intros i Li E. destruct (side_node_sn e k i (1 - htime e c l) Hcont Lk Li (peq_s _ _ E)) as [i0 [L0 [_ E0]]]. apply NT.
    destruct (st_rev e i0 Hcont L0) as [Lr Er]. exists (srev e i0). split; auto. lra. }
  split; [apply leaf_ins; auto|]. split; [apply sn_lt; auto|]. split; [rewrite app_length, (BalSets.nb_length _ _ _ _ _ N); cbn; lia|].
  eapply gl_trans; [apply (nb_glue adj (adj_lt pts faces m QF M) _ _ _ _ N); auto|].
  rewrite place_snoc by auto. apply glue_place. apply peq_s. eapply peq_t; [apply quarter_peq; apply sn_node; auto|]. eapply peq_t; [apply half_side; auto|].
  apply side_peq. unfold htime. lra.
Qed.
Lemma source_unique d p k q j c l p' k' q' j' c' l' : source d p k q j c l -> source d p' k' q' j' c' l' ->
  p = p' /\ k = k' /\ q = q' /\ j = j' /\ (htime e c l == htime e c' l')%Q.
Proof.
  intros S1 S2. destruct (source_geo _ _ _ _ _ _ _ S1) as [Lk [Lj [U [Hu [NN [Sc [Ln [Len G]]]]]]]].
  destruct (source_geo _ _ _ _ _ _ _ S2) as [Lk' [Lj' [U' [Hu' [NN' [Sc' [Ln' [Len' G']]]]]]]].
  destruct S1 as [Lp [N [Sq [Lf [Lc [Ll [Ed NT]]]]]]]. destruct S2 as [Lp' [N' [Sq' [Lf' [Lc' [Ll' [Ed' NT']]]]]]].
  set (x := side_pt k (1 - htime e c l)) in *. set (x' := side_pt k' (1 - htime e c' l')) in *.
  assert (SM : same faces e (q ++ [(j + c) mod 4], sn e j l) (q' ++ [(j' + c') mod 4], sn e j' l')) by (apply eqdof; auto; congruence).
  unfold same in SM. cbn [fst snd] in SM.
  assert (SY : forall a b, glued adj a b -> glued adj b a) by (apply glue_sym; apply (adj_sym pts faces m QF M)).
  assert (X1 : glued adj (place p x) (place (q' ++ [(j' + c') mod 4]) (node2 e (sn e j' l')))) by (eapply gl_trans; eauto).
  assert (X2 : glued adj (place p' x') (place (q ++ [(j + c) mod 4]) (node2 e (sn e j l)))) by (eapply gl_trans; [exact G'|apply SY; auto]).
  pose proof (nonnode_finer _ _ _ _ (leaf_here p Lp) (insub_here _ _ _ Sc') Ln' U NN X1) as L1.
  pose proof (nonnode_finer _ _ _ _ (leaf_here p' Lp') (insub_here _ _ _ Sc) Ln U' NN' X2) as L2.
  assert (EL : length p = length p') by lia.
  assert (XX : glued adj (place p x) (place p' x')) by (eapply gl_trans; [exact X1|apply SY; auto]).
  destruct (surf_level pts faces m QF M p p' EL (leaf_here p Lp) (leaf_here p' Lp') x x' U U' XX) as [[<- Ex]|[S|V]].
  - assert (Ek : k = k') by (apply (nonnode_side e x k k' (1 - htime e c l) (1 - htime e c' l')); auto; apply peq_r). subst k'.
    destruct (nb_same p k q j q' j' (leaf_here p Lp) (insub_here _ _ _ Sq) (insub_here _ _ _ Sq') N N') as [<- <-].
    split; auto. split; auto. split; auto. split; auto. apply (side_inj_t k) in Ex; auto. lra.
  - exfalso. destruct S as [a [b [t [Nab [Ht [E1 E2]]]]]]. destruct (nb_lt pts faces m QF M _ _ _ _ Nab) as [La Lb].
    assert (Ek : k = a) by (apply (nonnode_side e x k a (1 - htime e c l) t); auto; apply peq_r). subst a.
    destruct (nb_same p k q j p' b (leaf_here p Lp) (insub_here _ _ _ Sq) (leaf_here p' Lp') N Nab) as [<- _].
    apply (leaf_top q ((j + c) mod 4) Lp'). auto.
  - exfalso. destruct V as [c0 [d0 [Lc0 [_ [E1 _]]]]]. apply (nonnode_corner e x c0 Hcont NN Lc0 E1).
Qed.
(** ** values *)
Section values.
Context (u : nat -> Q).
Definition W (p : path) (x : pt) : Q := val e (fun k => u (dn p k)) x.
Lemma W_proper p x y : peq x y -> (W p x == W p y)%Q.
Proof. apply val_proper. Qed.
Lemma value_W p x v : ins p -> (value_at e s u p x v <-> (v == W p x)%Q).
Proof.
  intro Sp. assert (EX : exists ds, gd s p = Some (map Some ds) /\ length ds = n /\ forall k, k < n -> nth k ds 0 = dn p k).
  { pose proof (fun k L => slot_dofn m e s sf FILL p k Sp L) as SL. unfold slot in SL. destruct (gd s p) as [l|] eqn:El.
    2: { specialize (SL 0 (nd2_pos' e)). discriminate. }
    exists (map (fun o => match o with Some d => d | None => 0 end) l).
    assert (Ll : length l = n) by (apply (WF p l El)).
    split; [|split; [rewrite map_length; auto|]].
    - f_equal. rewrite map_map. apply nth_ext with (d := None) (d' := Some 0); [rewrite map_length; auto|]. intros i Hi.
      specialize (SL i ltac:(lia)). destruct (nth_error l i) as [[d|]|] eqn:Ei; try discriminate.
      rewrite (nth_error_nth _ _ _ Ei). symmetry. erewrite nth_error_nth; [reflexivity|]. rewrite nth_error_map, Ei. reflexivity.
    - intros k Hk. specialize (SL k Hk). destruct (nth_error l k) as [[d|]|] eqn:Ei; try discriminate. injection SL as SL.
      erewrite nth_error_nth; [|rewrite nth_error_map, Ei; reflexivity]. auto. }
  destruct EX as [ds [E1 [E2 E3]]]. unfold value_at. change (n_dofs D2 e) with n. split.
  - intros [ds' [F1 [F2 [l [G1 [G2 G3]]]]]]. assert (ds' = ds).
    { assert (X : map Some ds' = map Some ds) by congruence. clear - X. revert ds X. induction ds' as [|a l IH]; intros [|b r] X; try discriminate X; auto.
      cbn in X. injection X as -> X. f_equal. auto. }
    subst ds'. rewrite <- G3. unfold W, val, sigma. apply sumQ_ext.
    assert (X : l = map (fun k => u (dn p k) * fi e k x)%Q (seq 0 n)).
    { apply nth_ext with (d := 0%Q) (d' := 0%Q); [rewrite map_length, seq_length; auto|]. intros i Hi.
      destruct (nth_error l i) as [w|] eqn:Ei; [|apply nth_error_None in Ei; lia]. rewrite (nth_error_nth _ _ _ Ei). apply G2 in Ei.
      rewrite phi2_fi in Ei by lia. cbn [bind] in Ei. rewrite E3 in Ei by lia.
      set (g := fun k => (u (dn p k) * fi e k x)%Q). rewrite (nth_indep (map g (seq 0 n)) 0%Q (g 0)) by (rewrite map_length, seq_length; lia). rewrite map_nth, seq_nth by lia.
      cbn [Nat.add]. unfold g. congruence. }
    rewrite X. clear. induction (map (fun k => u (dn p k) * fi e k x)%Q (seq 0 n)); constructor; auto; reflexivity.
  - intro Ev. exists ds. split; auto. split; auto. exists (map (fun k => u (dn p k) * fi e k x)%Q (seq 0 n)). split; [rewrite map_length, seq_length; auto|].
    split; [|rewrite Ev; reflexivity]. intros i w Hw. rewrite nth_error_map in Hw. destruct (nth_error (seq 0 n) i) as [i'|] eqn:Ei; [|discriminate].
    apply seq_nth1 in Ei. destruct Ei as [-> Li]. cbn in Hw. rewrite phi2_fi by auto. cbn [bind]. rewrite E3 by auto. congruence.
Qed.
Lemma W_nb p k q j t : ins p -> ins q -> nb adj p k q j -> (W p (side_pt k t) == W q (side_pt j (1 - t)))%Q.
Proof.
  intros Sp Sq N. destruct (nb_lt pts faces m QF M _ _ _ _ N) as [Lk Lj]. unfold W. rewrite !trace by auto.
  apply sigma_rev; auto. intros i Li. destruct (st_rev e i Hcont Li) as [Lr Er].
  assert (E : dn p (sn e k i) = dn q (sn e j (srev e i))); [|rewrite E; reflexivity].
  apply eqdof; auto; try (apply sn_lt; auto). unfold same. cbn [fst snd].
  eapply gl_trans; [apply glue_place; apply sn_node; auto|]. eapply gl_trans; [apply (nb_glue adj (adj_lt pts faces m QF M) _ _ _ _ N); apply st_unit; auto|].
  apply glue_place. apply peq_s. eapply peq_t; [apply sn_node; auto|]. apply side_peq. auto.
Qed.
(** the constraint of an entry *)
Definition holds (y : entry_h) : Prop := (u (fst y) == sumQ (map (fun ac => snd ac * u (fst ac)) (combine (fst (snd y)) (snd (snd y)))))%Q.
Lemma sumQ_perm l l' : Permutation l l' -> (sumQ l == sumQ l')%Q.
Proof. induction 1; cbn [sumQ]; try lra. Qed.
Lemma fi_side a i t : a < 4 -> i < ns e -> (fi e (sn e a i) (side_pt a t) == ell e i t)%Q.
Proof.
  intros La Li. clear - Hcont La Li. unfold ns in Li. destruct e; try discriminate Hcont; cbn [dpe Nat.add] in Li;
    do 4 (destruct i as [|i]; [try (exfalso; lia); four a; unfold fi, ell, side_pt, corner; cbn; unfold third, two3; ring|]); lia.
Qed.
Lemma holds_entry q j c v y : j < 4 -> c < 2 -> In v (rvertices (rhalf e j c)) -> the_entry order e s q j c v y ->
  exists l, l < ns e /\ pos1 e ((j + c) mod 4) v = Some (sn e j l) /\ fst y = dn (q ++ [(j + c) mod 4]) (sn e j l) /\
    (holds y <-> (u (dn (q ++ [(j + c) mod 4]) (sn e j l)) == W q (side_pt j (htime e c l)))%Q).
Proof.
  intros Lj Lc Hv [E0 [l [Ll [E1 ->]]]]. exists l. split; auto. split; auto. split; auto. unfold holds. cbn [fst snd].
  destruct (hang_v e j c v Hcont Lj Lc Hv E0) as [l' [Ll' [E1' [EV _]]]].
  assert (PV : peq (coord (r_store (ref2 e)) v) (side_pt j (htime e c l))).
  { assert (El : sn e j l = sn e j l') by congruence.
    assert (P : peq (side_pt j (st e l)) (side_pt j (st e l'))).
    { eapply peq_t; [apply peq_s; apply (sn_node e j l Hcont Lj Ll)|]. rewrite El. apply sn_node; auto. }
    apply (side_inj_t j) in P; auto. eapply peq_t; [exact EV|]. apply side_peq. unfold htime. rewrite P. reflexivity. }
  assert (X : (sumQ (map (fun ac => snd ac * u (fst ac)) (combine (map (dn q) (order (supports e j))) (map (fun i => fi e i (coord (r_store (ref2 e)) v)) (order (supports e j))))) == W q (side_pt j (htime e c l)))%Q).
  { rewrite combine_map, map_map. cbn [fst snd]. rewrite (sumQ_perm _ _ (Permutation_map _ (PO _))). rewrite (supports_sn e j Hcont Lj), map_map.
    unfold W. rewrite trace by auto. apply sumQ_map_ext. intros i Hi. apply in_seq in Hi. rewrite (fi_proper e _ _ _ PV), fi_side by (auto; lia). ring. }
  rewrite X. reflexivity.
Qed.
Lemma holds_unique y y' : prod y -> prod y' -> fst y = fst y' -> holds y -> holds y'.
Proof.
  intros P1 P2 E. pose proof P1 as P1'. pose proof P2 as P2'.
  destruct P1 as [p [k [q [j [x [c [v [Lp [N [Sq [Sx [Lc [Hv T1]]]]]]]]]]]]]. destruct P2 as [p' [k' [q' [j' [x' [c' [v' [Lp' [N' [Sq' [Sx' [Lc' [Hv' T2]]]]]]]]]]]]].
  destruct (nb_lt pts faces m QF M _ _ _ _ N) as [_ Lj]. destruct (nb_lt pts faces m QF M _ _ _ _ N') as [_ Lj'].
  destruct (holds_entry q j c v y Lj Lc Hv T1) as [l [Ll [EP [Ed H1]]]]. destruct (holds_entry q' j' c' v' y' Lj' Lc' Hv' T2) as [l' [Ll' [EP' [Ed' H2]]]].
  assert (NT : forall q j x c v l y, j < 4 -> c < 2 -> l < ns e -> ins (q ++ [x]) -> In v (rvertices (rhalf e j c)) -> pos1 e ((j + c) mod 4) v = Some (sn e j l) -> the_entry order e s q j c v y ->
     ~ (exists i, i < ns e /\ (htime e c l == st e i)%Q)).
  { clear - Hcont. intros q j x c v l y Lj Lc Ll Sx Hv EP [E0 _]. destruct (hang_v e j c v Hcont Lj Lc Hv E0) as [l' [Ll' [E1' [_ NT]]]].
    assert (El : sn e j l = sn e j l') by congruence.
    assert (P : peq (side_pt j (st e l)) (side_pt j (st e l'))).
    { eapply peq_t; [apply peq_s; apply (sn_node e j l Hcont Lj Ll)|]. rewrite El. apply sn_node; auto. }
    apply (side_inj_t j) in P; auto. intros [i [Li Ei]]. apply NT. exists i. split; auto. unfold htime in *. rewrite <- P. auto. }
  assert (S1 : source (fst y) p k q j c l).
  { split; auto. split; auto. split; auto. split; [exact (child_leaf p k q j x c Lp N Sx Lc)|]. split; auto. split; auto. split; auto. exact (NT q j x c v l y Lj Lc Ll Sx Hv EP T1). }
  assert (S2 : source (fst y) p' k' q' j' c' l').
  { split; auto. split; auto. split; auto. split; [exact (child_leaf p' k' q' j' x' c' Lp' N' Sx' Lc')|]. split; auto. split; auto. split; [congruence|]. exact (NT q' j' x' c' v' l' y' Lj' Lc' Ll' Sx' Hv' EP' T2). }
  destruct (source_unique _ _ _ _ _ _ _ _ _ _ _ _ _ S1 S2) as [_ [_ [<- [<- ET]]]]. rewrite H1, H2, <- Ed, <- Ed', E. intro Z. rewrite Z. apply W_proper. apply side_peq. auto.
Qed.
Lemma satisfies_prods H : (forall y, In y H -> prod y) -> (forall y, prod y -> In (fst y) (map fst H)) -> (satisfies u H <-> forall y, prod y -> holds y).
Proof.
  intros A B. split.
  - intros Z y Py. pose proof (B y Py) as Hk. apply in_map_iff in Hk. destruct Hk as [y' [E Hy]]. apply (holds_unique y' y); auto.
    destruct y' as [d [sup cs]]. apply (Z d sup cs Hy).
  - intros Z d sup cs Hy. apply (Z (d, (sup, cs))). auto.
Qed.
(** values in the children of the neighbour *)
Lemma W_half p k q j x c t : leaf p -> nb adj p k q j -> ins q -> ins (q ++ [x]) -> c < 2 -> (forall y, prod y -> holds y) ->
  (W (q ++ [(j + c) mod 4]) (side_pt j t) == W q (side_pt j ((halfQ c + t) * (1 # 2))))%Q.
Proof.
  intros Lp N Sq Sx Lc Z. destruct (nb_lt pts faces m QF M _ _ _ _ N) as [_ Lj]. destruct (nb_nonempty _ _ _ _ _ N) as [_ Nq].
  assert (Sc : ins (q ++ [(j + c) mod 4])) by (eapply (ins_sib pts faces m sf M R); eauto; apply Nat.mod_upper_bound; lia).
  unfold W at 2. rewrite trace_half by auto. unfold W at 1. rewrite trace by auto. apply sigma_ext. intros l Ll. apply Qmult_comp; [|reflexivity].
  fold (htime e c l). destruct (is_node_time e (htime e c l)) eqn:NT.
  - apply node_time_spec in NT. destruct NT as [i [Li Ei]]. rewrite (val_proper e _ _ _ (side_peq j _ _ Ei)), (val_side_node e _ j i Hcont Lj Li).
    assert (E : dn (q ++ [(j + c) mod 4]) (sn e j l) = dn q (sn e j i)); [|rewrite E; reflexivity].
    apply eqdof; auto; try (apply sn_lt; auto). unfold same. cbn [fst snd]. rewrite place_snoc by auto. apply glue_place.
    eapply peq_t; [apply quarter_peq; apply sn_node; auto|]. eapply peq_t; [apply half_side; auto|]. apply peq_s. eapply peq_t; [apply sn_node; auto|].
    apply side_peq. symmetry. auto.
  - assert (NT' : ~ exists i, i < ns e /\ (htime e c l == st e i)%Q) by (rewrite <- node_time_spec; congruence).
    destruct (hang_l e j c l Hcont Lj Lc Ll NT') as [v [Hv [E0 [E1 _]]]].
    set (y := (dn (q ++ [(j + c) mod 4]) (sn e j l), (map (dn q) (order (supports e j)), map (fun i => fi e i (coord (r_store (ref2 e)) v)) (order (supports e j))))).
    assert (TE : the_entry order e s q j c v y) by (split; auto; exists l; auto).
    assert (Py : prod y) by (exists p, k, q, j, x, c, v; auto 10).
    destruct (holds_entry q j c v y Lj Lc Hv TE) as [l' [Ll' [E1' [_ Hh]]]]. pose proof (proj1 Hh (Z y Py)) as HH.
    assert (El : sn e j l' = sn e j l) by congruence.
    assert (P : peq (side_pt j (st e l')) (side_pt j (st e l))).
    { eapply peq_t; [apply peq_s; apply (sn_node e j l' Hcont Lj Ll')|]. rewrite El. apply sn_node; auto. }
    apply (side_inj_t j) in P; auto. rewrite El in HH. rewrite HH. apply W_proper. apply side_peq. unfold htime. rewrite P. reflexivity.
Qed.
(** two points in the boundary of a leaf and of a finer leaf *)
Lemma W_glued p q x y : (forall y, prod y -> holds y) -> leaf p -> leaf q -> length p <= length q -> unit_pt x -> unit_pt y ->
  glued adj (place p x) (place q y) -> (W p x == W q y)%Q.
Proof.
  intros Z Lp Lq L Ux Uy G. pose proof (leaf_ins p Lp) as Sp. pose proof (leaf_ins q Lq) as Sq. pose proof (ins_ne p Sp) as Np.
  destruct (cut_path q (length p)) as [a [r [E [La Na]]]]; auto; [destruct p; [congruence|cbn; lia]|]. subst q.
  rewrite place_app in G by auto. assert (Sa : ins a) by (eapply ins_prefix; eauto).
  destruct (surf_level pts faces m QF M p a (eq_sym La) (leaf_here p Lp) (insub_here _ _ _ Sa) x (in_root r y) Ux (unit_root r y Uy) G) as [[<- Ex]|[S|V]].
  - rewrite (leaf_below p r Lp Sq) in *. rewrite app_nil_r. apply W_proper. auto.
  - destruct S as [k [j [t [N [Ht [E1 E2]]]]]]. destruct (nb_lt pts faces m QF M _ _ _ _ N) as [Lk Lj].
    assert (Ht' : (0 <= 1 - t <= 1)%Q) by (destruct Ht; split; lra).
    rewrite (W_proper p _ _ E1), (W_nb p k a j t Sp Sa N). destruct r as [|i r].
    + rewrite app_nil_r. apply W_proper. apply peq_s. auto.
    + cbn [in_root] in E2.
      assert (Sai : ins (a ++ [i])) by (apply (ins_prefix _ r); [destruct a; discriminate|rewrite <- app_assoc; auto]).
      assert (Li : i < 4) by (eapply (s_fam m I a i); auto; eapply insub_here; eauto).
      assert (C : exists c tau, c < 2 /\ i = (j + c) mod 4 /\ peq (in_root r y) (side_pt j tau) /\ (1 - t == (halfQ c + tau) * (1 # 2))%Q).
      { destruct (quarter_side i j (1 - t) (in_root r y) Li Lj (unit_root r y Uy) Ht' E2) as [[-> [_ Ey]]|[-> [_ Ey]]].
        - exists 0, (2 * (1 - t))%Q. split; [lia|]. split; [rewrite Nat.add_0_r, Nat.mod_small; auto|]. split; auto. cbn [halfQ Nat.eqb]. lra.
        - exists 1, (2 * (1 - t) - 1)%Q. split; [lia|]. split; auto. split; auto. cbn [halfQ Nat.eqb]. lra. }
      destruct C as [c [tau [Lc [-> [Ey Et]]]]].
      assert (LF : leaf (a ++ [(j + c) mod 4])) by (exact (child_leaf p k a j ((j + c) mod 4) c Lp N Sai Lc)).
      assert (r = []). { apply (leaf_below (a ++ [(j + c) mod 4]) r LF). rewrite <- app_assoc. auto. }
      subst r. cbn [in_root] in Ey. rewrite (W_proper _ _ _ Ey), (W_half p k a j ((j + c) mod 4) c tau Lp N Sa Sai Lc Z). apply W_proper. apply side_peq. auto.
  - destruct V as [c [d [Lc [Ld [E1 [E2 _]]]]]].
    assert (Y : peq y (corner d)).
    { clear - E2 Uy Ld Sq Sa Na M R. revert E2. assert (F : Forall (fun i => i < 4) r).
      { apply Forall_forall. intros z Hz. apply in_split in Hz. destruct Hz as [l1 [l2 Ez]]. rewrite Ez in Sq.
        eapply (here_digits pts faces m M _ (insub_here _ _ _ Sq) z l2 (a ++ l1)); [rewrite <- app_assoc; auto|destruct a; [congruence|discriminate]]. }
      clear Sq. induction F as [|i r Li F IH]; cbn [in_root]; auto. intro E.
      apply IH. destruct (quarter_corner i d _ Li Ld (unit_root r y Uy) E); auto. }
    rewrite (W_proper p _ _ E1), (W_proper _ _ _ Y). unfold W. rewrite !val_corner by auto. destruct (node2_corner e c Hcont Lc) as [Ln1 Ec1]. destruct (node2_corner e d Hcont Ld) as [Ln2 Ec2].
    assert (E : dn p c = dn (a ++ r) d); [|rewrite E; reflexivity]. apply eqdof; auto. unfold same. cbn [fst snd].
    eapply gl_trans; [apply glue_place; eapply peq_t; [exact Ec1|apply peq_s; exact E1]|]. eapply gl_trans; [exact G|]. rewrite place_app by auto. apply glue_place.
    apply root_peq. eapply peq_t; [exact Y|apply peq_s; auto].
Qed.
Lemma prods_continuous : (forall y, prod y -> holds y) <-> continuous adj (cells m) sf e s u.
Proof.
  split.
  - intros Z p q x y v w Lp Lq Ux Uy G V1 V2. apply value_W in V1; [|apply leaf_ins; auto]. apply value_W in V2; [|apply leaf_ins; auto]. rewrite V1, V2.
    destruct (le_lt_dec (length p) (length q)) as [L|L]; [apply W_glued; auto|]. symmetry. apply W_glued; auto; [lia|].
    apply glue_sym; auto. apply (adj_sym pts faces m QF M).
  - intros Z y Py. pose proof Py as Py'. destruct Py as [p [k [q [j [x [c [v [Lp [N [Sq [Sx [Lc [Hv TE]]]]]]]]]]]]].
    destruct (nb_lt pts faces m QF M _ _ _ _ N) as [Lk Lj]. destruct (nb_nonempty _ _ _ _ _ N) as [_ Nq].
    destruct (holds_entry q j c v y Lj Lc Hv TE) as [l [Ll [E1 [_ Hh]]]]. apply Hh. clear Hh.
    assert (LF : leaf (q ++ [(j + c) mod 4])) by (eapply child_leaf; eauto).
    pose proof (htime_unit e c l Hcont Lc Ll) as HT. assert (HT' : (0 <= 1 - htime e c l <= 1)%Q) by (destruct HT; split; lra).
    assert (EQ : (W (q ++ [(j + c) mod 4]) (side_pt j (st e l)) == W p (side_pt k (1 - htime e c l)))%Q).
    { apply (Z (q ++ [(j + c) mod 4]) p (side_pt j (st e l)) (side_pt k (1 - htime e c l))); auto; try (apply unit_side; auto; apply st_unit; auto).
      - eapply glue_sym; [apply (adj_sym pts faces m QF M)|]. eapply gl_trans; [apply (nb_glue adj (adj_lt pts faces m QF M) _ _ _ _ N); auto|].
        rewrite place_snoc by auto. apply glue_place. apply peq_s. eapply peq_t; [apply half_side; auto|]. apply side_peq. unfold htime. lra.
      - apply value_W; [apply leaf_ins; auto|reflexivity].
      - apply value_W; [apply leaf_ins; auto|reflexivity]. }
    unfold W at 1 in EQ. rewrite val_side_node in EQ by auto. rewrite EQ. rewrite (W_nb p k q j _ (leaf_ins p Lp) Sq N). apply W_proper. apply side_peq. lra.
Qed.
End values.
(** the leaf [q] has the dof of slot [k] at a point where the leaf [p] has no node *)
Lemma hang_source p x q k : leaf p -> leaf q -> unit_pt x -> k < n -> glued adj (place p x) (place q (node2 e k)) -> nonnode e x ->
  exists k0 a j c l, nb adj p k0 a j /\ ins a /\ c < 2 /\ l < ns e /\ q = a ++ [(j + c) mod 4] /\ k = sn e j l /\ ~ (exists i, i < ns e /\ (htime e c l == st e i)%Q).
Proof.
  intros Lp Lq Ux Lk G NN. pose proof (leaf_ins p Lp) as Sp. pose proof (leaf_ins q Lq) as Sq. pose proof (ins_ne p Sp) as Np.
  pose proof (nonnode_finer p q k x (leaf_here p Lp) (leaf_here q Lq) Lk Ux NN G) as L.
  destruct (cut_path q (length p)) as [a [r [E [La Na]]]]; [destruct p; [congruence|cbn; lia]|lia|]. subst q.
  rewrite place_app in G by auto. assert (Sa : ins a) by (eapply ins_prefix; eauto).
  destruct (surf_level pts faces m QF M p a (eq_sym La) (leaf_here p Lp) (insub_here _ _ _ Sa) x (in_root r (node2 e k)) Ux (unit_root r _ (nodes2_unit e k)) G) as [[<- Ex]|[S|V]].
  - exfalso. rewrite (leaf_below p r Lp Sq), app_nil_r in L. lia.
  - destruct S as [k0 [j [t [N [Ht [E1 E2]]]]]]. destruct (nb_lt pts faces m QF M _ _ _ _ N) as [Lk0 Lj].
    assert (Ht' : (0 <= 1 - t <= 1)%Q) by (destruct Ht; split; lra).
    destruct r as [|i r]; [exfalso; rewrite app_nil_r in L; lia|]. cbn [in_root] in E2.
    assert (Sai : ins (a ++ [i])) by (apply (ins_prefix _ r); [destruct a; discriminate|rewrite <- app_assoc; auto]).
    assert (Li : i < 4) by (eapply (s_fam m I a i); auto; eapply insub_here; eauto).
    assert (C : exists c tau, c < 2 /\ i = (j + c) mod 4 /\ peq (in_root r (node2 e k)) (side_pt j tau) /\ (1 - t == (halfQ c + tau) * (1 # 2))%Q).
    { destruct (quarter_side i j (1 - t) (in_root r (node2 e k)) Li Lj (unit_root r _ (nodes2_unit e k)) Ht' E2) as [[-> [_ Ey]]|[-> [_ Ey]]].
      - exists 0, (2 * (1 - t))%Q. split; [lia|]. split; [rewrite Nat.add_0_r, Nat.mod_small; auto|]. split; auto. cbn [halfQ Nat.eqb]. lra.
      - exists 1, (2 * (1 - t) - 1)%Q. split; [lia|]. split; auto. split; auto. cbn [halfQ Nat.eqb]. lra. }
    destruct C as [c [tau [Lc [-> [Ey Et]]]]].
    assert (LF : leaf (a ++ [(j + c) mod 4])) by (exact (child_leaf p k0 a j ((j + c) mod 4) c Lp N Sai Lc)).
    assert (r = []). { apply (leaf_below (a ++ [(j + c) mod 4]) r LF). rewrite <- app_assoc. auto. }
    subst r. cbn [in_root] in Ey. destruct (side_node_sn e j k tau Hcont Lj Lk Ey) as [l [Ll [-> El]]].
    exists k0, a, j, c, l. split; auto. split; auto. split; auto. split; auto. split; auto. split; auto.
    intros [i [Li' Ei]]. destruct (st_rev e i Hcont Li') as [Lr Er]. apply (NN (sn e k0 (srev e i))); [apply sn_lt; auto|].
    eapply peq_t; [exact E1|]. apply peq_s. eapply peq_t; [apply sn_node; auto|]. apply side_peq. unfold htime in Ei. rewrite Er, <- Ei, <- El, <- Et. ring.
  - exfalso. destruct V as [c0 [d0 [Lc0 [_ [E1 _]]]]]. apply (nonnode_corner e x c0 Hcont NN Lc0 E1).
Qed.
Lemma hangs_iff d : hangs adj (cells m) sf e s d <-> exists y, prod y /\ fst y = d.
Proof.
  split.
  - intros [p [x [q [k [b [Lp [Lq [Ux [Dq [[z [Ez ->]] [G NN]]]]]]]]]]]. apply nodes2_at in Ez. destruct Ez as [Lk ->].
    assert (NN' : nonnode e x) by (intros j Lj; apply (NN j); apply nodes2_nth; auto).
    destruct (hang_source p x q k Lp Lq Ux Lk G NN') as [k0 [a [j [c [l [N [Sa [Lc [Ll [-> [-> NT]]]]]]]]]]].
    destruct (nb_lt pts faces m QF M _ _ _ _ N) as [Lk0 Lj]. destruct (hang_l e j c l Hcont Lj Lc Ll NT) as [v [Hv [E0 [E1 _]]]].
    exists (dn (a ++ [(j + c) mod 4]) (sn e j l), (map (dn a) (order (supports e j)), map (fun i => fi e i (coord (r_store (ref2 e)) v)) (order (supports e j)))).
    split.
    + exists p, k0, a, j, ((j + c) mod 4), c, v. split; auto. split; auto. split; auto. split; [apply leaf_ins; auto|]. split; auto. split; auto. split; auto. exists l. auto.
    + cbn [fst]. apply slot_dof in Dq. unfold dofn. rewrite Dq. auto.
  - intros [y [Py <-]]. destruct (prod_source y Py) as [p [k [q [j [c [l So]]]]]]. pose proof So as [Lp [N [Sq [Lf [Lc [Ll [Ed NT]]]]]]].
    destruct (source_geo _ _ _ _ _ _ _ So) as [Lk [Lj [U [_ [NN [Sc [Ln [Len G]]]]]]]]. rewrite Ed.
    exists p, (side_pt k (1 - htime e c l)), (q ++ [(j + c) mod 4]), (sn e j l), (place (q ++ [(j + c) mod 4]) (node2 e (sn e j l))).
    split; auto. split; auto. split; auto. split; [apply slot_dof; apply (slot_dofn m e s sf FILL); auto|]. split; [exists (node2 e (sn e j l)); split; auto; apply nodes2_nth; auto|].
    split; auto. intros i z Ei. apply nodes2_at in Ei. destruct Ei as [Li ->]. apply NN. auto.
Qed.
(** the supporting dofs are not constrained *)
Lemma supports_free y y' : prod y -> prod y' -> In (fst y') (fst (snd y)) -> False.
Proof.
  intros P1 P2 Hin. destruct (prod_source y' P2) as [A [kA [qA [jA [cA [lA So]]]]]]. pose proof So as [LA [NA [SqA [LfA [LcA [LlA [EdA NTA]]]]]]].
  destruct (source_geo _ _ _ _ _ _ _ So) as [LkA [LjA [UA [_ [NNA [ScA [LnA [LenA GA]]]]]]]].
  destruct P1 as [p [k [q [j [x [c [v [Lp [N [Sq [Sx [Lc [Hv [E0 [l [Ll [E1 ->]]]]]]]]]]]]]]]]]. cbn [fst snd] in Hin.
  destruct (nb_lt pts faces m QF M _ _ _ _ N) as [Lk Lj]. destruct (nb_nonempty _ _ _ _ _ N) as [_ Nq].
  apply in_map_iff in Hin. destruct Hin as [i0 [Ed Hi]]. apply (Permutation_in _ (PO _)) in Hi. rewrite (supports_sn e j Hcont Lj) in Hi. apply in_map_iff in Hi.
  destruct Hi as [i [<- Hi]]. apply in_seq in Hi. assert (Li : i < ns e) by lia. clear Hi.
  (* every leaf that has the dof has the level after A *)
  assert (LV : forall z kz, leaf z -> kz < n -> dn z kz = fst y' -> length z = S (length A)).
  { intros z kz Lz Lkz Ez. assert (SM : same faces e (qA ++ [(jA + cA) mod 4], sn e jA lA) (z, kz)) by (apply eqdof; auto; [apply leaf_ins; auto|congruence]).
    unfold same in SM. cbn [fst snd] in SM. destruct (hang_source A _ z kz LA Lz UA Lkz (gl_trans _ _ _ _ GA SM) NNA) as [k0 [a [j' [c' [l' [N' [_ [_ [_ [-> _]]]]]]]]]].
    rewrite app_length, (BalSets.nb_length _ _ _ _ _ N'). cbn. lia. }
  (* p has it *)
  destruct (st_rev e i Hcont Li) as [Lr Er].
  assert (Ep : dn p (sn e k (srev e i)) = fst y').
  { rewrite <- Ed. apply eqdof; auto; [apply leaf_ins; auto|apply sn_lt; auto|apply sn_lt; auto|]. unfold same. cbn [fst snd].
    eapply gl_trans; [apply glue_place; apply sn_node; auto|]. eapply gl_trans; [apply (nb_glue adj (adj_lt pts faces m QF M) _ _ _ _ N); apply st_unit; auto|].
    apply glue_place. apply peq_s. eapply peq_t; [apply sn_node; auto|]. apply side_peq. lra. }
  pose proof (LV p _ Lp (sn_lt e k _ Hcont Lk Lr) Ep) as L1.
  (* and a child of q *)
  pose proof (st_unit e i Hcont Li) as Hs.
  assert (C : exists c0 tau, c0 < 2 /\ (0 <= tau <= 1)%Q /\ (st e i == (halfQ c0 + tau) * (1 # 2))%Q).
  { destruct (Qlt_le_dec (1 # 2) (st e i)) as [L|L]; destruct Hs.
    - exists 1, (2 * st e i - 1)%Q. split; [lia|]. split; [split; lra|]. cbn [halfQ Nat.eqb]. lra.
    - exists 0, (2 * st e i)%Q. split; [lia|]. split; [split; lra|]. cbn [halfQ Nat.eqb]. lra. }
  destruct C as [c0 [tau [Lc0 [Ht Et]]]]. pose proof (child_leaf p k q j x c0 Lp N Sx Lc0) as LF.
  assert (GG : glued adj (place (q ++ [(j + c0) mod 4]) (side_pt j tau)) (place q (node2 e (sn e j i)))).
  { rewrite place_snoc by auto. apply glue_place. eapply peq_t; [apply half_side; auto|]. apply peq_s. eapply peq_t; [apply sn_node; auto|]. apply side_peq. auto. }
  destruct (node_finer (q ++ [(j + c0) mod 4]) q (sn e j i) (side_pt j tau) (leaf_here _ LF) (insub_here _ _ _ Sq)) as [z [Lz Ez]];
    [rewrite app_length; lia|apply sn_lt; auto|apply unit_side; auto|exact GG|].
  assert (Ec : dn (q ++ [(j + c0) mod 4]) z = fst y').
  { rewrite <- Ed. apply eqdof; auto; [apply leaf_ins; auto|apply sn_lt; auto|]. unfold same. cbn [fst snd]. eapply gl_trans; [apply glue_place; apply peq_s; exact Ez|exact GG]. }
  pose proof (LV _ z LF Lz Ec) as L2. rewrite app_length, (BalSets.nb_length _ _ _ _ _ N) in L2. cbn in L2. lia.
Qed.
(** supporting dofs and constrained dofs are dofs of leaves; as many coefficients as supports *)
Lemma prod_shape y : prod y -> length (fst (snd y)) = length (snd (snd y)) /\
  (exists q k, leaf q /\ slot s q k = Some (fst y)) /\ forall d, In d (fst (snd y)) -> exists p k, leaf p /\ slot s p k = Some d.
Proof.
  intros P. pose proof P as P'. destruct P as [p [k [q [j [x [c [v [Lp [N [Sq [Sx [Lc [Hv [E0 [l [Ll [E1 ->]]]]]]]]]]]]]]]]]. cbn [fst snd].
  destruct (nb_lt pts faces m QF M _ _ _ _ N) as [Lk Lj]. split; [rewrite !map_length; auto|]. split.
  - pose proof (child_leaf p k q j x c Lp N Sx Lc) as LF. exists (q ++ [(j + c) mod 4]), (sn e j l). split; auto. apply (slot_dofn m e s sf FILL); [apply leaf_ins; auto|apply sn_lt; auto].
  - intros d Hin. apply in_map_iff in Hin. destruct Hin as [i0 [<- Hi]]. apply (Permutation_in _ (PO _)) in Hi. rewrite (supports_sn e j Hcont Lj) in Hi. apply in_map_iff in Hi.
    destruct Hi as [i [<- Hi]]. apply in_seq in Hi. assert (Li : i < ns e) by lia. clear Hi. destruct (st_rev e i Hcont Li) as [Lr Er].
    exists p, (sn e k (srev e i)). split; auto. rewrite (slot_dofn m e s sf FILL) by (try apply leaf_ins; auto; apply sn_lt; auto). f_equal.
    apply eqdof; auto; [apply leaf_ins; auto|apply sn_lt; auto|apply sn_lt; auto|]. unfold same. cbn [fst snd].
    eapply gl_trans; [apply glue_place; apply sn_node; auto|]. eapply gl_trans; [apply (nb_glue adj (adj_lt pts faces m QF M) _ _ _ _ N); apply st_unit; auto|].
    apply glue_place. apply peq_s. eapply peq_t; [apply sn_node; auto|]. apply side_peq. lra.
Qed.
End geo.

(** every dof is constrained at most once *)
Lemma fold_keep {A X} (P : A -> Prop) (f : A -> X -> res A) l : (forall x H H', f H x = Ok H' -> P H -> P H') -> forall H H', fold_res f l H = Ok H' -> P H -> P H'.
Proof.
  intro F. induction l as [|x l IH]; cbn [fold_res]; intros H H' E PH; [congruence|]. destruct (f H x) as [H1|] eqn:E1; [|discriminate E]. cbn [bind] in E. eauto.
Qed.
Lemma dset_keys d v H : NoDup (map fst H) -> NoDup (map fst (dset d v H)) /\ forall x, In x (map fst (dset d v H)) -> In x (map fst H) \/ x = d.
Proof.
  induction H as [|[d' v'] r IH]; cbn [dset map fst]; intro N.
  - split; [constructor; auto|]. intros x [<-|[]]. auto.
  - apply NoDup_cons_iff in N. destruct N as [N1 N2]. destruct (IH N2) as [A B]. destruct (Nat.eqb_spec d' d) as [->|Ne]; cbn [map fst].
    + split; [constructor; auto|]. intros x Hx. auto.
    + split; [constructor; auto; intro Hx; destruct (B _ Hx); auto|]. intros x [<-|Hx]; [left; left; auto|]. destruct (B x Hx); auto. left. right. auto.
Qed.
Lemma hanging_keys order e m s sf H : set_hanging order e m s sf = Ok (Some H) -> NoDup (map fst H).
Proof.
  unfold set_hanging. destruct (torn e); [discriminate|]. destruct (fold_res _ _ _) as [H1|] eqn:E; [|discriminate]. cbn [bind]. intros [= <-].
  refine (fold_keep (fun H => NoDup (map fst H)) (hang_cell order e m s sf) _ _ [] H1 E (NoDup_nil _)). clear. intros p H H'. unfold hang_cell. apply (fold_keep (fun H : hdict => NoDup (map fst H))). clear. intros h K K'.
  unfold hang_side. destruct (get_neighbors m h sf) as [o|]; [|discriminate]. cbn [bind]. destruct o as [q|]; [|intros [= <-]; auto].
  destruct (twin (he (hp m) h)) as [t|]; [|intros [= <-]; auto]. destruct (cell_has_children m q sf); [|intros [= <-]; auto].
  unfold hang_neighbor. destruct (idx_of t (sides_of m q)) as [a|]; [|discriminate]. destruct (map_res _ _) as [sup|]; [|discriminate]. cbn [bind].
  apply (fold_keep (fun H : hdict => NoDup (map fst H))). clear. intros c H H'. apply (fold_keep (fun H : hdict => NoDup (map fst H))). clear. intros v L L'. unfold hang_vertex. destruct (pos0 e v); [intros [= <-]; auto|].
  destruct (map_res _ _) as [cs|]; [|discriminate]. cbn [bind]. destruct (hkids (he (hp m) t)) as [[t0 t1]|]; [|discriminate].
  destruct (hcell _) as [z|]; [|discriminate]. destruct (pos1 e ((a + c) mod 4) v) as [k|]; [|discriminate]. destruct (dof_of s z k) as [d|]; [|discriminate]. cbn [bind].
  intros E N. assert (X : L' = dset d (sup, cs) L) by congruence. rewrite X. apply dset_keys. auto.
Qed.
