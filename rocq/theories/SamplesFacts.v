(** * Facts on sampled assembly *)
From Coq Require Import List Arith Bool QArith Lia.
From Verif Require Import Tree TreeFacts Geom Dof Solver Basis Assemble Samples SpecSamples.
Import ListNotations.
Open Scope Q_scope.

Definition vmap {U V} (f : U -> V) (l : list (nat * U)) : list (nat * V) := map (fun p => (fst p, f (snd p))) l.
Lemma lookup_vmap {U V} (f : U -> V) k l : lookup k (vmap f l) = option_map f (lookup k l).
Proof.
  unfold lookup, vmap. induction l as [|[a b] l IH]; [reflexivity|]. cbn [map find fst snd]. destruct (a =? k)%nat; [reflexivity|exact IH].
Qed.
Lemma store_vmap {U V} (f : U -> V) k v l : vmap f (store k v l) = store k (f v) (vmap f l).
Proof.
  unfold store. rewrite lookup_vmap. destruct (lookup k l); cbn [option_map].
  - unfold vmap. rewrite !map_map. apply map_ext. intros [a b]. cbn [fst snd]. destruct (a =? k)%nat; reflexivity.
  - unfold vmap. rewrite map_app. reflexivity.
Qed.
Lemma remove_vmap {U V} (f : U -> V) k l : vmap f (remove_key k l) = remove_key k (vmap f l).
Proof.
  unfold remove_key, vmap. induction l as [|[a b] l IH]; [reflexivity|]. cbn [filter map fst snd]. destruct (negb (a =? k)%nat); cbn [map fst snd]; rewrite IH; reflexivity.
Qed.
Lemma lookup_in {V} k (l : list (nat * V)) v : lookup k l = Some v -> In (k, v) l.
Proof.
  unfold lookup. destruct (find _ l) as [[a b]|] eqn:E; [|discriminate]. cbn. intros Q. injection Q as <-. apply find_some in E. destruct E as [I Q]. cbn in Q. apply Nat.eqb_eq in Q. subst. exact I.
Qed.
Lemma store_forall {V} (P : V -> Prop) k v l : P v -> Forall (fun p => P (snd p)) l -> Forall (fun p : nat * V => P (snd p)) (store k v l).
Proof.
  intros H F. unfold store. destruct (lookup k l).
  - apply Forall_forall. intros p I. apply in_map_iff in I. destruct I as [q [<- I]]. rewrite Forall_forall in F. destruct (fst q =? k)%nat; [exact H|apply F; exact I].
  - apply Forall_app. split; [exact F|]. constructor; [exact H|constructor].
Qed.
Lemma remove_forall {V} (P : nat * V -> Prop) k l : Forall P l -> Forall P (remove_key k l).
Proof. intros F. apply Forall_forall. intros p I. apply filter_In in I. rewrite Forall_forall in F. apply F. tauto. Qed.

Lemma nth_mapq {U V} (f : U -> V) u v l i : (i < length l)%nat -> nth i (map f l) v = f (nth i l u).
Proof. intros H. rewrite (nth_indep _ v (f u)) by (rewrite map_length; exact H). apply map_nth. Qed.
Lemma pick_nth {X} (d : X) i n r : length r = n -> (i < n)%nat -> pick d i r = nth i r d.
Proof. intros L H. unfold pick. destruct (Nat.eqb_spec (length r) 1); [|reflexivity]. replace i with 0%nat by lia. reflexivity. Qed.

(** rows of length n *)
Definition sat1 (n : nat) (l : list (nat * row)) : Prop := Forall (fun p => length (snd p) = n) l.
Definition sat2 (n : nat) (l : list (nat * nat * row)) : Prop := Forall (fun p => length (snd p) = n) l.
Definition p1 (i : nat) : list (nat * row) -> list (nat * Q) := map (fun p => (fst p, nth i (snd p) 0)).
Definition p2 (i : nat) : list (nat * nat * row) -> list (nat * nat * Q) := map (fun p => (fst p, nth i (snd p) 0)).
Definition prow (i : nat) (l : list row) : list Q := map (fun r => nth i r 0) l.

Lemma map_rev_append {U V} (f : U -> V) l : forall m, map f (rev_append l m) = rev_append (map f l) (map f m).
Proof. induction l as [|a l IH]; intros m; cbn [rev_append map]; [reflexivity|]. rewrite IH. reflexivity. Qed.
Lemma forall_rev_append {U} (P : U -> Prop) l m : Forall P l -> Forall P m -> Forall P (rev_append l m).
Proof. intros A B. rewrite rev_append_rev. apply Forall_app. split; [apply Forall_rev; exact A|exact B]. Qed.

Section Loops.
Context (hng : list (nat * list (nat * Q))) (dir : list (nat * row)) (i n : nat) (Hi : (i < n)%nat).
Lemma nth_rscale c v : length v = n -> nth i (rscale c v) 0 = c * nth i v 0.
Proof. intros L. unfold rscale. apply (nth_mapq (fun x => c * x)). lia. Qed.
Lemma nth_rscale' c v : length v = n -> nth i (rscale' v c) 0 = nth i v 0 * c.
Proof. intros L. unfold rscale'. apply (nth_mapq (fun x => x * c)). lia. Qed.
Lemma loop1_sample (h : row -> Q) : forall fuel st out, sat1 n st -> sat1 n out ->
  loop1 hng (vmap h dir) fuel (p1 i st) (p1 i out) = res_map (p1 i) (sloop1 hng dir fuel st out) /\
  (forall l, sloop1 hng dir fuel st out = Ok l -> sat1 n l).
Proof.
  induction fuel as [|k IH]; intros [|[r v] st] out Fs Fo; cbn [loop1 sloop1 p1 map res_map]; try (split; [reflexivity|]; intros l Q; congruence).
  - apply Forall_cons_iff in Fs. destruct Fs as [Fv Fs]. cbn [snd] in Fv. cbn [fst snd].
    destruct (lookup r hng) as [supp|] eqn:Eh.
    + assert (FS : sat1 n (rev_append (map (fun p => (fst p, rscale (snd p) v)) supp) st)).
      { apply forall_rev_append; [|exact Fs]. apply Forall_forall. intros p I. apply in_map_iff in I. destruct I as [q [<- _]]. cbn [snd]. unfold rscale. rewrite map_length. exact Fv. }
      assert (X := IH _ out FS Fo). unfold p1 in X at 1. rewrite map_rev_append, map_map in X. cbn [fst snd] in X.
      rewrite (map_ext _ (fun p => (fst p, snd p * nth i v 0))) in X by (intros p; rewrite nth_rscale by exact Fv; reflexivity). exact X.
    + rewrite (@lookup_vmap row Q). destruct (lookup r dir) as [g|]; cbn [option_map].
      * apply (IH st out Fs Fo).
      * assert (FO : sat1 n (out ++ [(r, v)])) by (apply Forall_app; split; [exact Fo|constructor; [exact Fv|constructor]]).
        assert (X := IH st _ Fs FO). unfold p1 in X at 2. rewrite map_app in X. exact X.
Qed.
Lemma broadcast_ok v g : length v = n -> (length g = 1 \/ length g = n)%nat ->
  exists w, broadcast v g = Ok w /\ length w = n /\ nth i w 0 = nth i v 0 * pick 0 i g.
Proof.
  intros Lv Lg. unfold broadcast. destruct (Nat.eqb_spec (length v) (length g)) as [E|E].
  - eexists. split; [reflexivity|]. split; [rewrite map_length, combine_length; lia|].
    rewrite (nth_mapq _ (0, 0)) by (rewrite combine_length; lia). rewrite combine_nth by exact E. cbn [fst snd]. rewrite (pick_nth 0 i n) by lia. reflexivity.
  - destruct Lg as [Lg|Lg]; [|lia]. destruct g as [|c [|? ?]]; cbn in Lg; try lia. eexists. split; [reflexivity|]. split; [unfold rscale'; rewrite map_length; exact Lv|].
    rewrite nth_rscale' by exact Lv. reflexivity.
Qed.
Lemma loop2_sample (Fd : Forall (fun p => (length (snd p) = 1 \/ length (snd p) = n)%nat) dir) : forall fuel st out bnd, sat2 n st -> sat2 n out -> sat1 n bnd ->
  loop2 hng (@vmap row Q (pick 0 i) dir) fuel (p2 i st) (p2 i out) (p1 i bnd) = res_map (fun gb => (p2 i (fst gb), p1 i (snd gb))) (sloop2 hng dir fuel st out bnd) /\
  (forall gb, sloop2 hng dir fuel st out bnd = Ok gb -> sat2 n (fst gb) /\ sat1 n (snd gb)).
Proof.
  induction fuel as [|k IH]; intros [|[[r c] v] st] out bnd Fs Fo Fb; cbn [loop2 sloop2 p2 map res_map fst snd]; try (split; [reflexivity|]; intros l Q; try discriminate; injection Q as <-; split; assumption).
  - apply Forall_cons_iff in Fs. destruct Fs as [Fv Fs]. cbn [snd] in Fv.
    destruct (lookup r hng) as [supp|] eqn:Eh.
    { assert (FS : sat2 n (rev_append (map (fun p => (fst p, c, rscale' v (snd p))) supp) st)).
      { apply forall_rev_append; [|exact Fs]. apply Forall_forall. intros p I. apply in_map_iff in I. destruct I as [q [<- _]]. cbn [snd]. unfold rscale'. rewrite map_length. exact Fv. }
      assert (X := IH _ out bnd FS Fo Fb). unfold p2 in X at 1. rewrite map_rev_append, map_map in X. cbn [fst snd] in X.
      rewrite (map_ext _ (fun p => (fst p, c, nth i v 0 * snd p))) in X by (intros p; rewrite nth_rscale' by exact Fv; reflexivity). exact X. }
    rewrite (@lookup_vmap row Q). destruct (lookup r dir) as [g|]; cbn [option_map]; [apply (IH st out bnd Fs Fo Fb)|].
    destruct (lookup c hng) as [supp|] eqn:Eh'.
    { assert (FS : sat2 n (rev_append (map (fun p => (r, fst p, rscale' v (snd p))) supp) st)).
      { apply forall_rev_append; [|exact Fs]. apply Forall_forall. intros p I. apply in_map_iff in I. destruct I as [q [<- _]]. cbn [snd]. unfold rscale'. rewrite map_length. exact Fv. }
      assert (X := IH _ out bnd FS Fo Fb). unfold p2 in X at 1. rewrite map_rev_append, map_map in X. cbn [fst snd] in X.
      rewrite (map_ext _ (fun p => (r, fst p, nth i v 0 * snd p))) in X by (intros p; rewrite nth_rscale' by exact Fv; reflexivity). exact X. }
    rewrite (@lookup_vmap row Q). destruct (lookup c dir) as [g|] eqn:Eg; cbn [option_map].
    + apply lookup_in in Eg. rewrite Forall_forall in Fd. assert (Lg := Fd _ Eg). cbn [snd] in Lg.
      destruct (broadcast_ok v g Fv Lg) as [w [E [Lw V]]]. rewrite E. cbn [bind].
      assert (FB : sat1 n (bnd ++ [(r, w)])) by (apply Forall_app; split; [exact Fb|constructor; [exact Lw|constructor]]).
      assert (X := IH st out _ Fs Fo FB). unfold p1 in X at 1. rewrite map_app in X. cbn [map fst snd] in X. rewrite V in X. exact X.
    + assert (FO : sat2 n (out ++ [(r, c, v)])) by (apply Forall_app; split; [exact Fo|constructor; [exact Fv|constructor]]).
      assert (X := IH st _ bnd Fs FO Fb). unfold p2 in X at 2. rewrite map_app in X. exact X.
Qed.
End Loops.

(** ** the assembled forms *)
Definition q0 i (a : sform0) : aform0 := mkA0 (vmap (prow i) (sw0 a)) (prow i (sg0 a)).
Definition q1 i (a : sform1) : aform1 := mkA1 (vmap (p1 i) (sw1 a)) (p1 i (sg1 a)).
Definition q2 i (a : sform2) : aform2 := mkA2 (vmap (p2 i) (sw2 a)) (p2 i (sg2 a)) (p1 i (sb2 a)).
Definition qf i0 i1 i2 (a : sforms) : aforms := mkAF (option_map (q0 i0) (sf0 a)) (option_map (q1 i1) (sf1 a)) (option_map (q2 i2) (sf2 a)).
Definition ok0 n (a : sform0) := Forall (fun p => Forall (fun r => length r = n) (snd p)) (sw0 a) /\ Forall (fun r => length r = n) (sg0 a).
Definition ok1 n (a : sform1) := Forall (fun p => sat1 n (snd p)) (sw1 a) /\ sat1 n (sg1 a).
Definition ok2 n (a : sform2) := Forall (fun p => sat2 n (snd p)) (sw2 a) /\ sat2 n (sg2 a) /\ sat1 n (sb2 a).
Definition okf n0 n1 n2 (a : sforms) := (forall x, sf0 a = Some x -> ok0 n0 x) /\ (forall x, sf1 a = Some x -> ok1 n1 x) /\ (forall x, sf2 a = Some x -> ok2 n2 x).

Section Run.
Context (n0 n1 n2 i0 i1 i2 : nat) (H0 : (i0 < n0)%nat) (H1 : (i1 < n1)%nat) (H2 : (i2 < n2)%nat).
Context (hng : list (nat * list (nat * Q))) (dir : list (nat * row)) (Fd : Forall (fun p => (length (snd p) = 1 \/ length (snd p) = n2)%nat) dir).

Definition fits (f : slocal) : Prop :=
  match f with
  | SConstant v => length v = n0
  | SLinear t v => Forall (fun r => length r = n1) v
  | SBilinear t u M => (length M = 1 \/ length M = n2)%nat /\ Forall (fun A => shape (length t) (length u) A = true) M
  end.
Lemma tiled_ok M : (length M = 1 \/ length M = n2)%nat -> length (tiled n2 M) = n2 /\ nth i2 (tiled n2 M) [] = pick [] i2 M /\ (forall A, In A (tiled n2 M) -> In A M).
Proof.
  intros L. unfold tiled. destruct (Nat.ltb_spec 1 n2) as [G|G].
  - destruct M as [|A [|B M]].
    + cbn in L. lia.
    + split; [apply repeat_length|]. split; [rewrite (nth_indep _ [] A) by (rewrite repeat_length; exact H2); apply nth_repeat|]. intros X I. apply repeat_spec in I. left. congruence.
    + assert (length (A :: B :: M) = n2) by (cbn [length] in *; lia). split; [assumption|]. split; [symmetry; apply (pick_nth [] i2 n2); assumption|auto].
  - assert (length M = n2) by lia. split; [assumption|]. split; [symmetry; apply (pick_nth [] i2 n2); assumption|auto].
Qed.
Lemma combine_p1 (t : list nat) (v : list row) : p1 i1 (combine t v) = combine t (prow i1 v).
Proof. unfold p1, prow. revert v. induction t as [|a t IH]; intros [|b v]; cbn; try reflexivity. rewrite IH. reflexivity. Qed.
Lemma combine_p2 (t : list (nat * nat)) (v : list row) : p2 i2 (combine t v) = combine t (prow i2 v).
Proof. unfold p2, prow. revert v. induction t as [|a t IH]; intros [|b v]; cbn; try reflexivity. rewrite IH. reflexivity. Qed.
Lemma combine_snd {U V} (P : V -> Prop) (t : list U) (v : list V) : Forall P v -> Forall (fun p => P (snd p)) (combine t v).
Proof. intros F. apply Forall_forall. intros [a b] I. apply in_combine_r in I. rewrite Forall_forall in F. apply F. exact I. Qed.
Lemma sreshape_ok r c M : length M = n2 -> prow i2 (sreshape r c M) = reshape_F r c (nth i2 M []) /\ Forall (fun x => length x = n2) (sreshape r c M).
Proof.
  intros L. unfold sreshape, reshape_F, prow. split.
  - rewrite concat_map, map_map. f_equal. apply map_ext. intros j. rewrite map_map. apply map_ext. intros k. apply (nth_mapq (fun A => entry A k j)). lia.
  - apply Forall_forall. intros x I. apply in_concat in I. destruct I as [l [Il Ix]]. apply in_map_iff in Il. destruct Il as [j [<- _]]. apply in_map_iff in Ix. destruct Ix as [k [<- _]]. rewrite map_length. exact L.
Qed.
Lemma forall_lookup {V} (P : V -> Prop) k (l : list (nat * V)) d : P d -> Forall (fun p => P (snd p)) l -> P (match lookup k l with Some v => v | None => d end).
Proof. intros D F. destruct (lookup k l) as [v|] eqn:E; [|exact D]. apply lookup_in in E. rewrite Forall_forall in F. exact (F _ E). Qed.

Lemma update_sample cell af f : okf n0 n1 n2 af -> fits f ->
  update cell (qf i0 i1 i2 af) (sample_local i0 i1 i2 f) = res_map (qf i0 i1 i2) (supdate n2 cell af f) /\
  (forall af', supdate n2 cell af f = Ok af' -> okf n0 n1 n2 af').
Proof.
  intros [O0 [O1 O2]] Ff. destruct af as [a0 a1 a2]. cbn [sf0 sf1 sf2] in *. destruct f as [v|t v|t u M]; cbn [update sample_local supdate qf af0 af1 af2 sf0 sf1 sf2] in *.
  - destruct a0 as [a|]; cbn [option_map res_map]; [|split; [reflexivity|discriminate]]. destruct (O0 a eq_refl) as [A B]. split.
    + cbn [fits] in Ff. replace (update0 cell (pick 0 i0 v) (q0 i0 a)) with (q0 i0 (supdate0 cell v a)); [reflexivity|].
      unfold update0, supdate0, q0. cbn [w0 g0 sw0 sg0]. rewrite store_vmap, lookup_vmap.
      rewrite (pick_nth 0 i0 n0) by assumption. destruct (lookup cell (sw0 a)); reflexivity.
    + intros af' Q. injection Q as <-. split; [|split]; cbn [sf0 sf1 sf2]; [|exact O1|exact O2]. intros x Q. injection Q as <-. split; cbn [sw0 sg0 supdate0]; [|exact B].
      apply (store_forall (fun l => Forall (fun r => length r = n0) l)); [|exact A]. constructor; [exact Ff|]. apply (forall_lookup (fun l => Forall (fun r : row => length r = n0) l)); [constructor|exact A].
  - destruct a1 as [a|]; cbn [option_map res_map]; [|split; [reflexivity|discriminate]]. destruct (O1 a eq_refl) as [A B]. cbn [fits] in Ff. split.
    + replace (update1 cell t (map (pick 0 i1) v) (q1 i1 a)) with (q1 i1 (supdate1 cell t v a)); [reflexivity|].
      unfold update1, supdate1, q1. cbn [w1 g1 sw1 sg1]. rewrite store_vmap, lookup_vmap. f_equal. f_equal.
      unfold p1 at 1. rewrite map_rev_append. fold (p1 i1). rewrite (combine_p1 t v).
      rewrite (map_ext_in (pick 0 i1) (fun r => nth i1 r 0)) by (intros r I; rewrite Forall_forall in Ff; apply (pick_nth 0 i1 n1); [apply Ff; exact I|exact H1]).
      unfold prow. destruct (lookup cell (sw1 a)); reflexivity.
    + intros af' Q. injection Q as <-. split; [|split]; cbn [sf0 sf1 sf2]; [exact O0| |exact O2]. intros x Q. injection Q as <-. split; cbn [sw1 sg1 supdate1]; [|exact B].
      apply (store_forall (sat1 n1)); [|exact A]. apply forall_rev_append; [apply (combine_snd (fun r : row => length r = n1)); exact Ff|]. apply (forall_lookup (sat1 n1)); [constructor|exact A].
  - destruct a2 as [a|]; cbn [option_map res_map]; [|split; [reflexivity|discriminate]]. destruct (O2 a eq_refl) as [A [B C]]. cbn [fits] in Ff. destruct Ff as [L Sh].
    destruct (tiled_ok M L) as [Lt [Nt It]]. unfold update2, supdate2. rewrite Lt, Nat.eqb_refl. cbn [andb].
    assert (F1 : forallb (shape (length t) (length u)) (tiled n2 M) = true) by (apply forallb_forall; intros X I; rewrite Forall_forall in Sh; apply Sh, It; exact I).
    rewrite F1. assert (F2 : shape (length t) (length u) (pick [] i2 M) = true).
    { rewrite <- Nt. rewrite forallb_forall in F1. apply F1, nth_In. lia. }
    rewrite F2. cbn [bind res_map]. destruct (sreshape_ok (length t) (length u) (tiled n2 M) Lt) as [Rs Rl]. split.
    + match goal with |- Ok (mkAF _ _ (Some ?x)) = Ok (qf _ _ _ (mkSF _ _ (Some ?y))) => replace x with (q2 i2 y); [reflexivity|] end.
      unfold q2. cbn [w2 g2 b2 sw2 sg2 sb2]. rewrite store_vmap, lookup_vmap. f_equal. f_equal.
      unfold p2 at 1. rewrite map_rev_append. fold (p2 i2). rewrite (combine_p2 _ (sreshape (length t) (length u) (tiled n2 M))), Rs, Nt. destruct (lookup cell (sw2 a)); reflexivity.
    + intros af' Q. injection Q as <-. split; [|split]; cbn [sf0 sf1 sf2]; [exact O0|exact O1|]. intros x Q. injection Q as <-. split; cbn [sw2 sg2 sb2]; [|split; [exact B|exact C]].
      apply (store_forall (sat2 n2)); [|exact A]. apply forall_rev_append; [apply (combine_snd (fun r : row => length r = n2)); exact Rl|]. apply (forall_lookup (sat2 n2)); [constructor|exact A].
Qed.
Lemma updates_sample cell : forall fs af, okf n0 n1 n2 af -> Forall fits fs ->
  fold_res (fun af f => update cell af f) (map (sample_local i0 i1 i2) fs) (qf i0 i1 i2 af) = res_map (qf i0 i1 i2) (fold_res (fun af f => supdate n2 cell af f) fs af) /\
  (forall af', fold_res (fun af f => supdate n2 cell af f) fs af = Ok af' -> okf n0 n1 n2 af').
Proof.
  induction fs as [|f fs IH]; intros af O F; cbn [map fold_res]; [split; [reflexivity|]; intros af' Q; injection Q as <-; exact O|].
  apply Forall_cons_iff in F. destruct F as [F F']. destruct (update_sample cell af f O F) as [E O']. rewrite E.
  destruct (supdate n2 cell af f) as [af1|e]; cbn [res_map bind]; [|split; [reflexivity|discriminate]]. apply IH; [apply O'; reflexivity|exact F'].
Qed.
Lemma aggregate_sample fuel keep cell af : okf n0 n1 n2 af ->
  aggregate hng (sample_dir i2 dir) fuel keep cell (qf i0 i1 i2 af) = res_map (qf i0 i1 i2) (saggregate hng dir fuel keep cell af) /\
  (forall af', saggregate hng dir fuel keep cell af = Ok af' -> okf n0 n1 n2 af').
Proof.
  intros [O0 [O1 O2]]. destruct af as [a0 a1 a2]. unfold aggregate, saggregate. cbn [qf af0 af1 af2 sf0 sf1 sf2] in *.
  assert (E0 : opt_map_res (distribute0 cell) (option_map (q0 i0) a0) = res_map (option_map (q0 i0)) (opt_map_res (sdistribute0 cell) a0) /\
               forall o, opt_map_res (sdistribute0 cell) a0 = Ok o -> forall x, o = Some x -> ok0 n0 x).
  { destruct a0 as [a|]; cbn [option_map opt_map_res res_map]; [|split; [reflexivity|intros o Q x Qx; congruence]]. destruct (O0 a eq_refl) as [A B].
    unfold distribute0, sdistribute0. cbn [q0 w0]. rewrite lookup_vmap. destruct (lookup cell (sw0 a)) as [l|] eqn:El; cbn [option_map bind res_map]; [|split; [reflexivity|discriminate]]. split.
    - do 2 f_equal. unfold q0. cbn [sw0 sg0 g0]. f_equal. unfold prow. rewrite map_app, map_rev. reflexivity.
    - intros o Q x Qx. injection Q as <-. injection Qx as <-. split; cbn [sw0 sg0]; [exact A|]. apply Forall_app. split; [exact B|]. apply Forall_rev. apply lookup_in in El. rewrite Forall_forall in A. exact (A _ El). }
  assert (E1 : opt_map_res (distribute1 hng (sample_dir i2 dir) fuel cell) (option_map (q1 i1) a1) = res_map (option_map (q1 i1)) (opt_map_res (sdistribute1 hng dir fuel cell) a1) /\
               forall o, opt_map_res (sdistribute1 hng dir fuel cell) a1 = Ok o -> forall x, o = Some x -> ok1 n1 x).
  { destruct a1 as [a|]; cbn [option_map opt_map_res res_map]; [|split; [reflexivity|intros o Q x Qx; congruence]]. destruct (O1 a eq_refl) as [A B].
    unfold distribute1, sdistribute1. cbn [q1 w1 g1]. rewrite lookup_vmap. destruct (lookup cell (sw1 a)) as [l|] eqn:El; cbn [option_map bind res_map]; [|split; [reflexivity|discriminate]].
    apply lookup_in in El. assert (Sl : sat1 n1 l) by (rewrite Forall_forall in A; exact (A _ El)).
    destruct (loop1_sample hng dir i1 n1 H1 (pick 0 i2) fuel l (sg1 a) Sl B) as [E P]. change (sample_dir i2 dir) with (@vmap row Q (pick 0 i2) dir). rewrite E.
    destruct (sloop1 hng dir fuel l (sg1 a)) as [g|e]; cbn [res_map bind option_map]; [|split; [reflexivity|discriminate]]. split.
    - do 2 f_equal. unfold q1. cbn [sw1 sg1]. f_equal. rewrite store_vmap. reflexivity.
    - intros o Q x Qx. injection Q as <-. injection Qx as <-. split; cbn [sw1 sg1]; [|apply P; reflexivity]. apply (store_forall (sat1 n1)); [constructor|exact A]. }
  assert (E2 : opt_map_res (distribute2 hng (sample_dir i2 dir) fuel cell) (option_map (q2 i2) a2) = res_map (option_map (q2 i2)) (opt_map_res (sdistribute2 hng dir fuel cell) a2) /\
               forall o, opt_map_res (sdistribute2 hng dir fuel cell) a2 = Ok o -> forall x, o = Some x -> ok2 n2 x).
  { destruct a2 as [a|]; cbn [option_map opt_map_res res_map]; [|split; [reflexivity|intros o Q x Qx; congruence]]. destruct (O2 a eq_refl) as [A [B C]].
    unfold distribute2, sdistribute2. cbn [q2 w2 g2 b2]. rewrite lookup_vmap. destruct (lookup cell (sw2 a)) as [l|] eqn:El; cbn [option_map bind res_map]; [|split; [reflexivity|discriminate]].
    apply lookup_in in El. assert (Sl : sat2 n2 l) by (rewrite Forall_forall in A; exact (A _ El)).
    destruct (loop2_sample hng dir i2 n2 H2 Fd fuel l (sg2 a) (sb2 a) Sl B C) as [E P]. change (sample_dir i2 dir) with (@vmap row Q (pick 0 i2) dir). rewrite E.
    destruct (sloop2 hng dir fuel l (sg2 a) (sb2 a)) as [g|e]; cbn [res_map bind option_map]; [|split; [reflexivity|discriminate]]. split.
    - do 2 f_equal. unfold q2. cbn [sw2 sg2 sb2 fst snd]. f_equal. rewrite store_vmap. reflexivity.
    - intros o Q x Qx. injection Q as <-. injection Qx as <-. destruct (P _ eq_refl). split; cbn [sw2 sg2 sb2]; [|split; assumption]. apply (store_forall (sat2 n2)); [constructor|exact A]. }
  destruct E0 as [E0 P0], E1 as [E1 P1], E2 as [E2 P2]. rewrite E0.
  destruct (opt_map_res (sdistribute0 cell) a0) as [b0|e]; cbn [res_map bind]; [|split; [reflexivity|discriminate]]. rewrite E1.
  destruct (opt_map_res (sdistribute1 hng dir fuel cell) a1) as [b1|e]; cbn [res_map bind]; [|split; [reflexivity|discriminate]]. rewrite E2.
  destruct (opt_map_res (sdistribute2 hng dir fuel cell) a2) as [c2|e]; cbn [res_map bind]; [|split; [reflexivity|discriminate]].
  specialize (P0 _ eq_refl). specialize (P1 _ eq_refl). specialize (P2 _ eq_refl). split.
  - f_equal. destruct keep; [reflexivity|]. unfold qf. cbn [sf0 sf1 sf2]. f_equal; [destruct b0 as [x|]|destruct b1 as [x|]|destruct c2 as [x|]]; cbn [option_map]; try reflexivity; f_equal;
      [unfold q0|unfold q1|unfold q2]; cbn [w0 g0 w1 g1 w2 g2 b2 sw0 sg0 sw1 sg1 sw2 sg2 sb2]; rewrite remove_vmap; reflexivity.
  - intros af' Q. injection Q as <-. destruct keep; [split; [|split]; cbn [sf0 sf1 sf2]; assumption|].
    split; [|split]; cbn [sf0 sf1 sf2]; intros x Q; [destruct b0 as [y|]|destruct b1 as [y|]|destruct c2 as [y|]]; try discriminate; cbn [option_map] in Q; injection Q as <-.
    + destruct (P0 y eq_refl) as [A B]. split; cbn [sw0 sg0]; [apply remove_forall; exact A|exact B].
    + destruct (P1 y eq_refl) as [A B]. split; cbn [sw1 sg1]; [apply remove_forall; exact A|exact B].
    + destruct (P2 y eq_refl) as [A B]. split; cbn [sw2 sg2 sb2]; [apply remove_forall; exact A|exact B].
Qed.
Lemma cells_sample fuel keep : forall cells af, okf n0 n1 n2 af -> Forall (fun c => Forall fits (snd c)) cells ->
  assemble_cells hng (sample_dir i2 dir) fuel keep (sample_cells i0 i1 i2 cells) (qf i0 i1 i2 af) = res_map (qf i0 i1 i2) (sassemble_cells n2 hng dir fuel keep cells af) /\
  (forall af', sassemble_cells n2 hng dir fuel keep cells af = Ok af' -> okf n0 n1 n2 af').
Proof.
  unfold assemble_cells, sassemble_cells. induction cells as [|c cells IH]; intros af O F; cbn [sample_cells map fold_res]; [split; [reflexivity|]; intros af' Q; injection Q as <-; exact O|].
  apply Forall_cons_iff in F. destruct F as [F F']. unfold assemble_cell at 1, sassemble_cell at 1 3. cbn [fst snd].
  destruct (updates_sample (fst c) (snd c) af O F) as [E O']. rewrite E.
  destruct (fold_res (fun af f => supdate n2 (fst c) af f) (snd c) af) as [af1|e]; cbn [res_map bind]; [|split; [reflexivity|discriminate]].
  destruct (aggregate_sample fuel keep (fst c) af1 (O' _ eq_refl)) as [E2 O2]. rewrite E2.
  destruct (saggregate hng dir fuel keep (fst c) af1) as [af2|e]; cbn [res_map bind]; [|split; [reflexivity|discriminate]]. apply IH; [apply O2; reflexivity|exact F'].
Qed.
End Run.
