(** * Lemmas on assembly *)
From Coq Require Import List Arith Bool QArith Lia.
From Verif Require Import Tree Geom Dof Solver SpecSolver SolverFacts Basis Assemble SpecAssemble.
Import ListNotations.
Open Scope Q_scope.

(** ** Sums over lists *)
Lemma total_nil : forall X (f : X -> Q), total f [] == 0.
Proof. reflexivity. Qed.
Lemma total_cons : forall X (f : X -> Q) a l, total f (a :: l) == f a + total f l.
Proof. reflexivity. Qed.
Lemma total_app : forall X (f : X -> Q) l l', total f (l ++ l') == total f l + total f l'.
Proof. induction l; intros; [cbn [app rev_append]; rewrite ?total_nil; ring|]. cbn [app]. rewrite !total_cons, IHl. ring. Qed.
Lemma total_ext : forall X (f g : X -> Q) l, (forall a, In a l -> f a == g a) -> total f l == total g l.
Proof. induction l; intros E; [reflexivity|]. rewrite !total_cons, IHl, (E a); [reflexivity|left; reflexivity|]. intros; apply E; right; assumption. Qed.
Lemma total_map : forall X Y (f : Y -> Q) (g : X -> Y) l, total f (map g l) == total (fun a => f (g a)) l.
Proof. intros. unfold total. rewrite map_map. reflexivity. Qed.
Lemma total_rev_append : forall X (f : X -> Q) l l', total f (rev_append l l') == total f l + total f l'.
Proof. induction l; intros; [cbn [app rev_append]; rewrite ?total_nil; ring|]. cbn [rev_append]. rewrite IHl, !total_cons. ring. Qed.
Lemma total_scal : forall X (f : X -> Q) a l, total (fun x => a * f x) l == a * total f l.
Proof. induction l; [cbn [app rev_append]; rewrite ?total_nil; ring|]. rewrite !total_cons, IHl. ring. Qed.
Lemma total_scalr : forall X (f : X -> Q) a l, total (fun x => f x * a) l == total f l * a.
Proof. induction l; [cbn [app rev_append]; rewrite ?total_nil; ring|]. rewrite !total_cons, IHl. ring. Qed.
Lemma total_zero : forall X (f : X -> Q) l, (forall a, In a l -> f a == 0) -> total f l == 0.
Proof. induction l; intros E; [reflexivity|]. rewrite total_cons, IHl, (E a); [ring|left; reflexivity|]. intros; apply E; right; assumption. Qed.
Lemma total_plus : forall X (f g : X -> Q) l, total (fun x => f x + g x) l == total f l + total g l.
Proof. induction l; [cbn [app rev_append]; rewrite ?total_nil; ring|]. rewrite !total_cons, IHl. ring. Qed.
Lemma sum_total : forall n f, sum n f == total f (seq 0 n).
Proof. intros. reflexivity. Qed.
Lemma sum_shift : forall n f, sum (S n) f == f 0%nat + sum n (fun i => f (S i)).
Proof. intros. unfold sum. cbn [seq map fold_right]. rewrite <- seq_shift, map_map. reflexivity. Qed.

(** ** Dictionaries *)
Lemma lookup_in : forall V k (d : list (nat * V)) v, lookup k d = Some v -> In (k, v) d.
Proof.
  intros V k d v E. unfold lookup in E. destruct (find _ d) as [[a b]|] eqn:F; [|discriminate]. injection E as <-.
  apply find_some in F. destruct F as [I F]. cbn in F. apply Nat.eqb_eq in F. subst. exact I.
Qed.
Lemma lookup_none : forall V k (d : list (nat * V)), lookup k d = None <-> ~ In k (map fst d).
Proof.
  intros V k d. unfold lookup. destruct (find _ d) as [[a b]|] eqn:F; cbn.
  - apply find_some in F. destruct F as [I F]. cbn in F. apply Nat.eqb_eq in F. subst. split; [discriminate|].
    intro N. exfalso. apply N. apply (in_map fst) in I. exact I.
  - split; [|reflexivity]. intros _ I. apply in_map_iff in I. destruct I as [[a b] [E I]]. cbn in E. subst.
    apply (find_none _ _ F) in I. cbn in I. rewrite Nat.eqb_refl in I. discriminate.
Qed.
Lemma lookup_nodup : forall V k (d : list (nat * V)) v, NoDup (map fst d) -> In (k, v) d -> lookup k d = Some v.
Proof.
  intros V k d v N I. destruct (lookup k d) as [w|] eqn:E.
  - apply lookup_in in E. f_equal. induction d as [|[a b] d IH]; [destruct I|]. cbn in N. apply NoDup_cons_iff in N. destruct N as [N1 N2].
    destruct I as [I|I], E as [E|E].
    + congruence.
    + injection I as -> ->. exfalso. apply N1. apply (in_map fst) in E. exact E.
    + injection E as -> ->. exfalso. apply N1. apply (in_map fst) in I. exact I.
    + apply IH; assumption.
  - apply lookup_none in E. exfalso. apply E. apply (in_map fst) in I. exact I.
Qed.
Lemma find_app_none : forall X (f : X -> bool) l l', find f l = None -> find f (l ++ l') = find f l'.
Proof. induction l; intros l' E; [reflexivity|]. cbn in *. destruct (f a); [discriminate|]. apply IHl. exact E. Qed.
Lemma find_app_some : forall X (f : X -> bool) l l' a, find f l = Some a -> find f (l ++ l') = Some a.
Proof. induction l; intros l' b E; [discriminate|]. cbn in *. destruct (f a); [exact E|]. apply IHl. exact E. Qed.
Lemma lookup_store_same : forall V k (v : V) d, lookup k (store k v d) = Some v.
Proof.
  intros V k v d. unfold store. destruct (lookup k d) as [w|] eqn:E.
  - unfold lookup in *. induction d as [|[a b] d IH]; [discriminate|]. cbn in *. destruct (Nat.eqb_spec a k).
    + cbn. rewrite Nat.eqb_refl. reflexivity.
    + cbn. destruct (Nat.eqb_spec a k); [contradiction|]. apply IH. exact E.
  - unfold lookup in *. destruct (find _ d) eqn:F; [discriminate|]. rewrite find_app_none by exact F. cbn. rewrite Nat.eqb_refl. reflexivity.
Qed.
Lemma lookup_store_other : forall V k k' (v : V) d, k' <> k -> lookup k' (store k v d) = lookup k' d.
Proof.
  intros V k k' v d N. unfold store. destruct (lookup k d) as [w|] eqn:E.
  - clear E. unfold lookup. induction d as [|[a b] d IH]; [reflexivity|]. cbn. destruct (Nat.eqb_spec a k).
    + subst. cbn. destruct (Nat.eqb_spec k k'); [congruence|]. exact IH.
    + cbn. destruct (Nat.eqb_spec a k'); [reflexivity|exact IH].
  - unfold lookup. destruct (find (fun p => (fst p =? k')%nat) d) as [x|] eqn:F.
    + rewrite (find_app_some _ _ _ _ _ F). reflexivity.
    + rewrite (find_app_none _ _ _ _ F). cbn. destruct (Nat.eqb_spec k k'); [congruence|reflexivity].
Qed.
Lemma lookup_remove_other : forall V k k' (d : list (nat * V)), k' <> k -> lookup k' (remove_key k d) = lookup k' d.
Proof.
  intros V k k' d N. unfold lookup, remove_key. induction d as [|[a b] d IH]; [reflexivity|]. cbn.
  destruct (Nat.eqb_spec a k); cbn.
  - subst. destruct (Nat.eqb_spec k k'); [congruence|]. exact IH.
  - destruct (Nat.eqb_spec a k'); [reflexivity|exact IH].
Qed.

(** ** The loops *)
Section Loops.
Context (hng : list (nat * list (nat * Q))) (dir : list (nat * Q)).

Lemma test_hng : forall v r supp, test_space hng dir v -> lookup r hng = Some supp ->
  total (fun p => snd p * v (fst p)) supp == v r.
Proof.
  intros v r supp T E. apply lookup_in in E. unfold test_space, constraints in T.
  specialize (T (mkC r supp 0)). unfold homogeneous, combination in T. cbn in T. symmetry. apply T.
  apply in_or_app. left. apply in_map_iff. exists (r, supp). split; [reflexivity|exact E].
Qed.
Lemma test_dir : forall v r g, test_space hng dir v -> lookup r dir = Some g -> v r == 0.
Proof.
  intros v r g T E. apply lookup_in in E. unfold test_space, constraints in T.
  specialize (T (mkC r [] g)). unfold homogeneous, combination in T. cbn in T. apply T.
  apply in_or_app. right. apply in_map_iff. exists (r, g). split; [reflexivity|exact E].
Qed.
Lemma trial_hng : forall x r supp, trial_space hng dir x -> lookup r hng = Some supp ->
  total (fun p => snd p * x (fst p)) supp == x r.
Proof.
  intros v r supp T E. apply lookup_in in E. unfold trial_space, constraints in T.
  specialize (T (mkC r supp 0)). unfold fulfils, combination in T. cbn in T. rewrite T; [cbn; unfold total; ring|].
  apply in_or_app. left. apply in_map_iff. exists (r, supp). split; [reflexivity|exact E].
Qed.
Lemma trial_dir : forall x r g, trial_space hng dir x -> lookup r dir = Some g -> x r == g.
Proof.
  intros v r g T E. apply lookup_in in E. unfold trial_space, constraints in T.
  specialize (T (mkC r [] g)). unfold fulfils, combination in T. cbn in T. rewrite T; [ring|].
  apply in_or_app. right. apply in_map_iff. exists (r, g). split; [reflexivity|exact E].
Qed.

Definition lin (v : vec) (p : nat * Q) : Q := v (fst p) * snd p.
Definition blin (v x : vec) (t : nat * nat * Q) : Q := v (fst (fst t)) * snd t * x (snd (fst t)).

Lemma dist_l : forall v q supp, total (lin v) (map (fun p => (fst p, snd p * q)) supp) == q * total (fun p => snd p * v (fst p)) supp.
Proof. intros. rewrite total_map, <- total_scal. apply total_ext. intros. unfold lin. cbn. ring. Qed.
Lemma dist_r : forall v x q c supp, total (blin v x) (map (fun p => (fst p, c, q * snd p)) supp) == q * x c * total (fun p => snd p * v (fst p)) supp.
Proof. intros. rewrite total_map, <- total_scal. apply total_ext. intros. unfold blin. cbn. ring. Qed.
Lemma dist_c : forall v x q r supp, total (blin v x) (map (fun p => (r, fst p, q * snd p)) supp) == v r * q * total (fun p => snd p * x (fst p)) supp.
Proof. intros. rewrite total_map, <- total_scal. apply total_ext. intros. unfold blin. cbn. ring. Qed.

Lemma loop1_total : forall v, test_space hng dir v -> forall fuel st out out',
  loop1 hng dir fuel st out = Ok out' -> total (lin v) out' == total (lin v) out + total (lin v) st.
Proof.
  intros v T. induction fuel as [|k IH]; intros [|[r q] st] out out' E; cbn [loop1] in E; try discriminate.
  1, 2: injection E as <-; rewrite total_nil; ring.
  destruct (lookup r hng) as [supp|] eqn:Eh.
  - rewrite (IH _ _ _ E). rewrite total_rev_append, dist_l, total_cons, (test_hng v r supp T Eh). unfold lin. cbn. ring.
  - destruct (lookup r dir) as [g|] eqn:Ed.
    + rewrite (IH _ _ _ E), total_cons. unfold lin at 4. cbn. rewrite (test_dir v r g T Ed). ring.
    + rewrite (IH _ _ _ E), total_app, !total_cons, total_nil. ring.
Qed.

Lemma loop2_total : forall v x, test_space hng dir v -> trial_space hng dir x -> forall fuel st out bnd out' bnd',
  loop2 hng dir fuel st out bnd = Ok (out', bnd') ->
  total (blin v x) out' + total (lin v) bnd' == total (blin v x) out + total (lin v) bnd + total (blin v x) st.
Proof.
  intros v x T X. induction fuel as [|k IH]; intros [|[[r c] q] st] out bnd out' bnd' E; cbn [loop2] in E; try discriminate.
  1, 2: injection E as <- <-; rewrite total_nil; ring.
  destruct (lookup r hng) as [supp|] eqn:Eh.
  - rewrite (IH _ _ _ _ _ E). rewrite total_rev_append, dist_r, total_cons, (test_hng v r supp T Eh). unfold blin. cbn. ring.
  - destruct (lookup r dir) as [g|] eqn:Ed.
    + rewrite (IH _ _ _ _ _ E), total_cons. unfold blin at 4. cbn. rewrite (test_dir v r g T Ed). ring.
    + destruct (lookup c hng) as [supp|] eqn:Ec.
      * rewrite (IH _ _ _ _ _ E). rewrite total_rev_append, dist_c, total_cons, (trial_hng x c supp X Ec). unfold blin. cbn. ring.
      * destruct (lookup c dir) as [g|] eqn:Eg.
        -- assert (Z1 : blin v x (r, c, q) == lin v (r, q * g)) by (unfold blin, lin; cbn; rewrite (trial_dir x c g X Eg); ring).
           rewrite (IH _ _ _ _ _ E), total_app, !total_cons, total_nil, Z1. ring.
        -- rewrite (IH _ _ _ _ _ E), total_app, !total_cons, total_nil. ring.
Qed.

(** Dofs to which a dof is distributed *)
Inductive red : nat -> nat -> Prop :=
| red_here : forall d, lookup d hng = None -> red d d
| red_step : forall d supp p d', lookup d hng = Some supp -> In p supp -> red (fst p) d' -> red d d'.
Lemma red_free : forall d d', red d d' -> lookup d' hng = None.
Proof. intros d d' R. induction R; assumption. Qed.
Lemma red_none : forall d d', lookup d hng = None -> (red d d' <-> d' = d).
Proof.
  intros d d' E. split; [|intros ->; constructor; exact E]. intros R. inversion R; subst; [reflexivity|congruence].
Qed.
Lemma red_some : forall d d' supp, lookup d hng = Some supp -> (red d d' <-> exists p, In p supp /\ red (fst p) d').
Proof.
  intros d d' supp E. split.
  - intros R. inversion R; subst; [congruence|]. exists p. rewrite E in H. injection H as ->. split; assumption.
  - intros [p [I R]]. exact (red_step d supp p d' E I R).
Qed.
Definition free_of (d d' : nat) : Prop := red d d' /\ lookup d' dir = None.

Lemma loop1_dofs : forall fuel st out out', loop1 hng dir fuel st out = Ok out' ->
  forall d, In d (map fst out') <-> In d (map fst out) \/ exists p, In p st /\ free_of (fst p) d.
Proof.
  induction fuel as [|k IH]; intros [|[r q] st] out out' E d; cbn [loop1] in E; try discriminate.
  1, 2: injection E as <-; split; [tauto|intros [I|[p [[] _]]]; exact I].
  assert (Hd : forall P : Prop, (P \/ exists p, In p ((r, q) :: st) /\ free_of (fst p) d) <-> (P \/ free_of r d \/ exists p, In p st /\ free_of (fst p) d)).
  { intros P. split.
    - intros [A|[p [[<-|I] F]]]; [tauto|right; left; exact F|right; right; exists p; tauto].
    - intros [A|[F|[p [I F]]]]; [tauto|right; exists (r, q); split; [left; reflexivity|exact F]|right; exists p; split; [right; exact I|exact F]]. }
  rewrite Hd. clear Hd.
  destruct (lookup r hng) as [supp|] eqn:Eh.
  - rewrite (IH _ _ _ E d). unfold free_of at 2. rewrite (red_some r d supp Eh).
    split; (intros [A|B]; [left; exact A|right]).
    + destruct B as [p [I F]]. rewrite rev_append_rev in I. apply in_app_or in I. destruct I as [I|I]; [left|right; exists p; tauto].
      apply in_rev in I. apply in_map_iff in I. destruct I as [p0 [<- I]]. cbn in F. destruct F as [F N]. split; [exists p0; tauto|exact N].
    + destruct B as [[[p0 [I R]] N]|[p [I F]]].
      * exists (fst p0, snd p0 * q). rewrite rev_append_rev. split; [|split; [exact R|exact N]]. apply in_or_app. left. rewrite <- in_rev.
        apply (in_map (fun p => (fst p, snd p * q))). exact I.
      * exists p. split; [|exact F]. rewrite rev_append_rev. apply in_or_app. right. exact I.
  - destruct (lookup r dir) as [g|] eqn:Ed.
    + rewrite (IH _ _ _ E d). split; [tauto|]. intros [A|[[R N]|A]]; [tauto| |tauto].
      apply red_none in R; [|exact Eh]. subst. congruence.
    + rewrite (IH _ _ _ E d), map_app. unfold free_of at 2. rewrite (red_none r d Eh). split.
      * intros [A|A]; [|tauto]. apply in_app_or in A. destruct A as [A|[<-|[]]]; [tauto|]. right; left. cbn. split; [reflexivity|exact Ed].
      * intros [A|[[-> N]|A]]; [left; apply in_or_app; tauto| |tauto]. left. apply in_or_app. right. left. reflexivity.
Qed.

Definition pos (t : nat * nat * Q) : nat * nat := fst t.
Lemma loop2_dofs : forall fuel st out bnd out' bnd', loop2 hng dir fuel st out bnd = Ok (out', bnd') ->
  (forall r c, In (r, c) (map pos out') <-> In (r, c) (map pos out) \/ exists t, In t st /\ free_of (fst (fst t)) r /\ free_of (snd (fst t)) c) /\
  (forall r, In r (map fst bnd') <-> In r (map fst bnd) \/ exists t, In t st /\ free_of (fst (fst t)) r /\ exists c, red (snd (fst t)) c /\ lookup c dir <> None).
Proof.
  induction fuel as [|k IH]; intros [|[[r0 c0] q] st] out bnd out' bnd' E; cbn [loop2] in E; try discriminate.
  1, 2: injection E as <- <-; split; intros; split; [tauto|intros [A|[t [[] _]]]; exact A|tauto|intros [A|[t [[] _]]]; exact A].
  assert (Hd : forall (P : Prop) (Q : nat * nat * Q -> Prop), (P \/ exists t, In t ((r0, c0, q) :: st) /\ Q t) <-> (P \/ Q (r0, c0, q) \/ exists t, In t st /\ Q t)).
  { intros P Q. split.
    - intros [A|[p [[<-|I] F]]]; [tauto|right; left; exact F|right; right; exists p; tauto].
    - intros [A|[F|[p [I F]]]]; [tauto|right; eexists; split; [left; reflexivity|exact F]|right; exists p; split; [right; exact I|exact F]]. }
  assert (Hr : forall (P : Prop) (Q : nat * nat * Q -> Prop) l, (P \/ exists t, In t (rev_append l st) /\ Q t) <-> (P \/ (exists t, In t l /\ Q t) \/ exists t, In t st /\ Q t)).
  { intros P Q l. split.
    - intros [A|[t [I F]]]; [tauto|]. rewrite rev_append_rev in I. apply in_app_or in I. destruct I as [I|I]; [apply in_rev in I; right; left; exists t; tauto|right; right; exists t; tauto].
    - intros [A|[[t [I F]]|[t [I F]]]]; [tauto| |]; right; exists t; split; try exact F; rewrite rev_append_rev; apply in_or_app; [left; apply in_rev in I; exact I|right; exact I]. }
  destruct (lookup r0 hng) as [supp|] eqn:Eh.
  - destruct (IH _ _ _ _ _ E) as [I1 I2]. split.
    + intros r c. rewrite I1, Hr, Hd. cbn [fst snd]. unfold free_of at 5. rewrite (red_some r0 r supp Eh).
      assert (X : (exists t, In t (map (fun p : nat * Q => (fst p, c0, q * snd p)) supp) /\ free_of (fst (fst t)) r /\ free_of (snd (fst t)) c) <->
                  ((exists p, In p supp /\ red (fst p) r) /\ lookup r dir = None) /\ free_of c0 c).
      { split.
        - intros [t [I [[F1 F2] F3]]]. apply in_map_iff in I. destruct I as [p [<- I]]. cbn in *. split; [split; [exists p; tauto|exact F2]|exact F3].
        - intros [[[p [I R]] N] F]. exists (fst p, c0, q * snd p). split; [apply (in_map (fun p : nat * Q => (fst p, c0, q * snd p))); exact I|]. cbn. split; [split; assumption|exact F]. }
      rewrite X. tauto.
    + intros r. rewrite I2, Hr, Hd. cbn [fst snd]. unfold free_of at 3. rewrite (red_some r0 r supp Eh).
      assert (X : (exists t, In t (map (fun p : nat * Q => (fst p, c0, q * snd p)) supp) /\ free_of (fst (fst t)) r /\ (exists c, red (snd (fst t)) c /\ lookup c dir <> None)) <->
                  ((exists p, In p supp /\ red (fst p) r) /\ lookup r dir = None) /\ (exists c, red c0 c /\ lookup c dir <> None)).
      { split.
        - intros [t [I [[F1 F2] F3]]]. apply in_map_iff in I. destruct I as [p [<- I]]. cbn in *. split; [split; [exists p; tauto|exact F2]|exact F3].
        - intros [[[p [I R]] N] F]. exists (fst p, c0, q * snd p). split; [apply (in_map (fun p : nat * Q => (fst p, c0, q * snd p))); exact I|]. cbn. split; [split; assumption|exact F]. }
      rewrite X. tauto.
  - destruct (lookup r0 dir) as [g|] eqn:Ed.
    + destruct (IH _ _ _ _ _ E) as [I1 I2].
      assert (N : forall r, ~ free_of r0 r). { intros r [R N]. apply red_none in R; [|exact Eh]. subst. congruence. }
      split; [intros r c|intros r]; rewrite Hd; cbn [fst snd]; [rewrite I1|rewrite I2]; specialize (N r); tauto.
    + assert (Fr : forall r, free_of r0 r <-> r = r0).
      { intros r. unfold free_of. rewrite (red_none r0 r Eh). split; [tauto|]. intros ->. tauto. }
      destruct (lookup c0 hng) as [supp|] eqn:Ec.
      * destruct (IH _ _ _ _ _ E) as [I1 I2]. split.
        -- intros r c. rewrite I1, Hr, Hd. cbn [fst snd]. unfold free_of at 6. rewrite (red_some c0 c supp Ec).
           assert (X : (exists t, In t (map (fun p : nat * Q => (r0, fst p, q * snd p)) supp) /\ free_of (fst (fst t)) r /\ free_of (snd (fst t)) c) <->
                  free_of r0 r /\ ((exists p, In p supp /\ red (fst p) c) /\ lookup c dir = None)).
           { split.
             - intros [t [I [F1 [F2 F3]]]]. apply in_map_iff in I. destruct I as [p [<- I]]. cbn in *. split; [exact F1|split; [exists p; tauto|exact F3]].
             - intros [F [[p [I R]] N]]. exists (r0, fst p, q * snd p). split; [apply (in_map (fun p : nat * Q => (r0, fst p, q * snd p))); exact I|]. cbn. split; [exact F|split; assumption]. }
           rewrite X. tauto.
        -- intros r. rewrite I2, Hr, Hd. cbn [fst snd].
           assert (X : (exists t, In t (map (fun p : nat * Q => (r0, fst p, q * snd p)) supp) /\ free_of (fst (fst t)) r /\ (exists c, red (snd (fst t)) c /\ lookup c dir <> None)) <->
                  free_of r0 r /\ (exists c, red c0 c /\ lookup c dir <> None)).
           { split.
             - intros [t [I [F1 [c [F2 F3]]]]]. apply in_map_iff in I. destruct I as [p [<- I]]. cbn in *. split; [exact F1|]. exists c. split; [|exact F3]. rewrite (red_some c0 c supp Ec). exists p. tauto.
             - intros [F [c [R N]]]. rewrite (red_some c0 c supp Ec) in R. destruct R as [p [I R]]. exists (r0, fst p, q * snd p). split; [apply (in_map (fun p : nat * Q => (r0, fst p, q * snd p))); exact I|]. cbn. split; [exact F|]. exists c. tauto. }
           rewrite X. tauto.
      * assert (Rc : forall c, red c0 c <-> c = c0) by (intros c; apply red_none; exact Ec).
        destruct (lookup c0 dir) as [g|] eqn:Eg.
        -- destruct (IH _ _ _ _ _ E) as [I1 I2]. split.
           ++ intros r c. rewrite I1, Hd. cbn [fst snd].
              assert (N : ~ free_of c0 c) by (intros [R N]; apply Rc in R; subst; congruence). tauto.
           ++ intros r. rewrite I2, Hd, map_app. cbn [fst snd map]. rewrite Fr.
              assert (X : exists c, red c0 c /\ lookup c dir <> None) by (exists c0; split; [apply Rc; reflexivity|congruence]).
              rewrite in_app_iff. cbn [In]. intuition congruence.
        -- destruct (IH _ _ _ _ _ E) as [I1 I2]. split.
           ++ intros r c. rewrite I1, Hd, map_app, in_app_iff. cbn [fst snd map In pos]. rewrite Fr.
              assert (X : free_of c0 c <-> c = c0) by (unfold free_of; rewrite Rc; split; [tauto|intros ->; tauto]).
              rewrite X. unfold pos at 2. cbn [fst]. split; [intros [[A|[A|[]]]|A]|intros [A|[[-> ->]|A]]]; try tauto.
              injection A as -> ->. tauto.
           ++ intros r. rewrite I2, Hd. cbn [fst snd].
              assert (N : ~ exists c, red c0 c /\ lookup c dir <> None) by (intros [c [R N]]; apply Rc in R; subst; congruence). tauto.
Qed.
End Loops.
