(** * Twins are same-level neighbours (for C28-C30) *)
From Coq Require Import List Arith Bool Lia QArith.
From Verif Require Import Tree Forest Geom SpecGeom Dcel Quad SpecForest TreeFacts ForestFacts QuadFacts QuadSplit QuadInv SpecQuad.
Import ListNotations.
Open Scope nat_scope.

Definition radj (m : mesh2) (r k r' j : nat) : Prop :=
  here m [r] /\ here m [r'] /\ k < 4 /\ j < 4 /\ T (hp m) (side m [r] k) = Some (side m [r'] j).

Lemma m4_1 k : k < 4 -> ((k + 3) mod 4 + 1) mod 4 = k.
Proof. intros L. destruct k as [|[|[|[|k]]]]; try lia; reflexivity. Qed.
Lemma m4_2 k : k < 4 -> ((k + 1) mod 4 + 3) mod 4 = k.
Proof. intros L. destruct k as [|[|[|[|k]]]]; try lia; reflexivity. Qed.
Lemma m4_3 k : k < 4 -> ((k + 3) mod 4 + 3) mod 4 = (k + 2) mod 4.
Proof. intros L. destruct k as [|[|[|[|k]]]]; try lia; reflexivity. Qed.
Lemma m4_cases i k : i < 4 -> k < 4 -> k = i \/ i = (k + 1) mod 4 \/ k = (i + 1) mod 4 \/ (i = ((i + 3) mod 4 + 1) mod 4 /\ k = ((i + 3) mod 4 + 3) mod 4).
Proof. intros Li Lk. destruct i as [|[|[|[|i]]]]; try lia; (destruct k as [|[|[|[|k]]]]; try lia; simpl; lia). Qed.

Section NB.
Context {m : mesh2} (I : sinv m).
Local Notation s := (hp m).

Lemma twin_side p k t : here m p -> k < 4 -> T s (side m p k) = Some t ->
  exists q j, here m q /\ j < 4 /\ t = side m q j /\ T s (side m q j) = Some (side m p k).
Proof.
  intros Hp Lk E. destruct (side_good I p k Hp Lk) as [L _]. destruct (i_t _ (s_h m I) _ _ L E) as [Lt [Tt _]].
  destruct (s_all m I t Lt) as [q [j [Hq [Lj ->]]]]. exists q, j. auto.
Qed.
(** the twin of a half of a side *)
Lemma kids_dec q : here m q -> (forall i, ~ here m (q ++ [i])) \/ (forall i, i < 4 -> here m (q ++ [i])).
Proof.
  intros Hq. pose proof (path_nonempty q Hq) as Nq. destruct (here_dec m (q ++ [0])) as [H0|H0].
  - right. apply (s_fam m I q 0 Nq H0).
  - left. intros i Hi. apply H0. apply (s_fam m I q i Nq Hi). lia.
Qed.
Lemma halves_twin p k : p <> [] -> k < 4 -> here m (p ++ [k]) ->
  match T s (side m (p ++ [k]) k), T s (side m (p ++ [(k + 1) mod 4]) k) with
  | Some t, Some t' => exists q j, here m q /\ (forall i, i < 4 -> here m (q ++ [i])) /\ j < 4 /\ T s (side m p k) = Some (side m q j) /\
       t = side m (q ++ [(j + 1) mod 4]) j /\ t' = side m (q ++ [j]) j
  | None, None => forall q j, j < 4 -> T s (side m p k) = Some (side m q j) -> here m q -> forall i, ~ here m (q ++ [i])
  | _, _ => False
  end.
Proof.
  intros Np Lk Hk. pose proof (here_parent m p k Np Hk) as Hp. destruct (s_kids m I p k Np Hk) as [EK _].
  destruct (side_good I p k Hp Lk) as [L _].
  pose proof (i_kt _ (s_h m I) _ _ _ L EK) as KT. destruct (T s (side m p k)) as [t|] eqn:Et.
  - destruct (twin_side p k t Hp Lk Et) as [q [j [Hq [Lj [-> _]]]]]. pose proof (path_nonempty q Hq) as Nq.
    destruct (kids_dec q Hq) as [Hn|Hy].
    + rewrite (s_leaf m I q Hq Hn j Lj) in KT. destruct KT as [-> ->]. intros q' j' Lj' E Hq'.
      injection E as E. destruct (side_inj I q q' j j' Hq Hq' Lj Lj' E) as [<- _]. auto.
    + destruct (s_kids m I q j Nq (Hy j Lj)) as [EQ _]. rewrite EQ in KT. destruct KT as [KT1 KT2]. rewrite KT1, KT2.
      exists q, j. auto 6.
  - destruct KT as [-> ->]. discriminate.
Qed.

Lemma twin_child p i k t : p <> [] -> here m (p ++ [i]) -> k < 4 -> T s (side m (p ++ [i]) k) = Some t ->
  (k = i /\ exists q j, here m q /\ j < 4 /\ here m (q ++ [(j + 1) mod 4]) /\ T s (side m p k) = Some (side m q j) /\ t = side m (q ++ [(j + 1) mod 4]) j) \/
  (i = (k + 1) mod 4 /\ exists q j, here m q /\ j < 4 /\ here m (q ++ [j]) /\ T s (side m p k) = Some (side m q j) /\ t = side m (q ++ [j]) j) \/
  (k = (i + 1) mod 4 /\ here m (p ++ [(i + 1) mod 4]) /\ t = side m (p ++ [(i + 1) mod 4]) ((i + 3) mod 4)) \/
  (exists i', i' < 4 /\ i = (i' + 1) mod 4 /\ k = (i' + 3) mod 4 /\ here m (p ++ [i']) /\ t = side m (p ++ [i']) ((i' + 1) mod 4)).
Proof.
  intros Np Hi Lk E. destruct (s_fam m I p i Np Hi) as [Li F].
  destruct (m4_cases i k Li Lk) as [->|[Ei|[Ek|[Ei Ek]]]].
  - left. split; auto. pose proof (halves_twin p i Np Li Hi) as Q. rewrite E in Q.
    destruct (T s (side m (p ++ [(i + 1) mod 4]) i)) as [t'|]; [|contradiction].
    destruct Q as [q [j [Hq [Hy [Lj [Q1 [Q2 Q3]]]]]]]. exists q, j. auto 7.
  - right. left. split; auto. subst i. pose proof (halves_twin p k Np Lk (F k Lk)) as Q. rewrite E in Q.
    destruct (T s (side m (p ++ [k]) k)) as [t'|]; [|contradiction].
    destruct Q as [q [j [Hq [Hy [Lj [Q1 [Q2 Q3]]]]]]]. exists q, j. auto 7.
  - right. right. left. split; auto. split; auto. destruct (s_kids m I p i Np Hi) as [_ [ET _]]. subst k.
    rewrite ET in E. congruence.
  - right. right. right. exists ((i + 3) mod 4). split; auto. split; auto. split; auto. split; auto.
    assert (Hi' : here m (p ++ [(i + 3) mod 4])) by auto.
    destruct (s_kids m I p _ Np Hi') as [_ [ET _]]. rewrite <- Ei, <- Ek in *.
    destruct (side_good I (p ++ [(i + 3) mod 4]) i Hi' Li) as [L _].
    destruct (i_t _ (s_h m I) _ _ L ET) as [_ [TT _]]. congruence.
Qed.

Lemma root_twin r k q j : here m [r] -> k < 4 -> here m q -> j < 4 -> T s (side m [r] k) = Some (side m q j) -> exists r', q = [r'].
Proof.
  intros Hr Lk Hq Lj E. destruct (side_good I [r] k Hr Lk) as [L _]. destruct (i_t _ (s_h m I) _ _ L E) as [_ [E' _]].
  destruct q as [|i q _] using rev_ind; [destruct (path_nonempty [] Hq); auto|].
  destruct q as [|a q]; [exists i; auto|]. exfalso.
  assert (NE : forall x (y : path) i', x <> [] -> [r] <> x ++ [i']).
  { intros x y i' Nx Ex. destruct x as [|? [|]]; simpl in Ex; congruence. }
  destruct (twin_child (a :: q) i j (side m [r] k) ltac:(congruence) Hq Lj E')
    as [[_ [q' [j' [Hq' [Lj' [Hk [_ Et]]]]]]]|[[_ [q' [j' [Hq' [Lj' [Hk [_ Et]]]]]]]|[[_ [Hk Et]]|[i' [Li' [_ [_ [Hk Et]]]]]]]];
  apply side_inj in Et; auto; destruct Et as [Et _]; revert Et; apply NE; auto; try congruence; try (apply (path_nonempty q' Hq')).
Qed.

Lemma nb_sides (adj : nat -> nat -> nat -> nat -> Prop) p k q j : (forall r k r' j, adj r k r' j -> k < 4 /\ j < 4) -> nb adj p k q j ->
  k < 4 /\ j < 4 /\ length p = length q /\ p <> [] /\ q <> [].
Proof.
  intros A N.
  assert (NN : forall (x : path) y, x ++ [y] <> []) by (intros x y Z; symmetry in Z; revert Z; apply app_cons_not_nil).
  induction N as [r k r' j H|p k q j N IHN|p k q j N IHN|p i Np Li|p i Np Li]; rewrite ?app_length; cbn [length].
  - destruct (A _ _ _ _ H). split; [auto|]. split; [auto|]. split; [auto|]. split; congruence.
  - destruct IHN as [a1 [a2 [a3 [a4 a5]]]]. split; [auto|]. split; [auto|]. split; [congruence|]. split; apply NN.
  - destruct IHN as [a1 [a2 [a3 [a4 a5]]]]. split; [auto|]. split; [auto|]. split; [congruence|]. split; apply NN.
  - split; [auto|]. split; [auto|]. split; [auto|]. split; apply NN.
  - split; [auto|]. split; [auto|]. split; [auto|]. split; apply NN.
Qed.
Lemma nb_sym (adj : nat -> nat -> nat -> nat -> Prop) p k q j : (forall r k r' j, adj r k r' j -> adj r' j r k) -> nb adj p k q j -> nb adj q j p k.
Proof. intros A N. induction N; try (constructor; auto; fail). Qed.
Lemma radj_sym r k r' j : radj m r k r' j -> radj m r' j r k.
Proof.
  intros [H1 [H2 [L1 [L2 E]]]]. repeat split; auto. destruct (side_good I [r] k H1 L1) as [L _].
  apply (i_t _ (s_h m I) _ _ L E).
Qed.
Lemma radj_lt r k r' j : radj m r k r' j -> k < 4 /\ j < 4.
Proof. intros [_ [_ [? [? _]]]]; auto. Qed.

Theorem twin_nb p k q j : here m p -> here m q -> k < 4 -> j < 4 ->
  (T s (side m p k) = Some (side m q j) <-> nb (radj m) p k q j).
Proof.
  intros Hp Hq Lk Lj. split.
  - revert k q j Hp Hq Lk Lj. induction p as [|i p IH] using rev_ind; intros k q j Hp Hq Lk Lj E; [destruct (path_nonempty [] Hp); auto|].
    destruct p as [|a p].
    + simpl in *. destruct (root_twin i k q j Hp Lk Hq Lj E) as [r' ->]. constructor. repeat split; auto.
    + assert (Np : a :: p <> []) by congruence. pose proof (here_parent m _ _ Np Hp) as Ha.
      destruct (twin_child (a :: p) i k _ Np Hp Lk E)
        as [[-> [q' [j' [Hq' [Lj' [Hk [E' Et]]]]]]]|[[-> [q' [j' [Hq' [Lj' [Hk [E' Et]]]]]]]|[[-> [Hk Et]]|[i' [Li' [-> [-> [Hk Et]]]]]]]].
      * apply side_inj in Et; auto. destruct Et as [-> ->]. apply nb_first. apply IH; auto.
      * apply side_inj in Et; auto. destruct Et as [-> ->]. apply nb_second. apply IH; auto.
      * apply side_inj in Et; auto. destruct Et as [-> ->]. apply nb_next; auto. apply (s_fam m I (a :: p) i Np Hp).
      * apply side_inj in Et; auto. destruct Et as [-> ->]. apply nb_prev; auto.
  - intros N. revert Hp Hq. induction N; intros Hp Hq.
    + apply H.
    + destruct (nb_sides _ _ _ _ _ radj_lt N) as [_ [_ [_ [Np Nq]]]].
      pose proof (here_parent m _ _ Np Hp) as Ha. pose proof (here_parent m _ _ Nq Hq) as Hb. specialize (IHN Lk Lj Ha Hb).
      pose proof (halves_twin p k Np Lk Hp) as Q.
      destruct (T s (side m (p ++ [k]) k)) as [t|], (T s (side m (p ++ [(k + 1) mod 4]) k)) as [t'|]; try contradiction.
      * destruct Q as [q' [j' [Hq' [_ [Lj' [Q1 [Q2 Q3]]]]]]]. rewrite IHN in Q1. injection Q1 as Q1. apply side_inj in Q1; auto.
        destruct Q1 as [-> ->]. congruence.
      * exfalso. apply (Q q j Lj IHN Hb _ Hq).
    + destruct (nb_sides _ _ _ _ _ radj_lt N) as [_ [_ [_ [Np Nq]]]].
      pose proof (here_parent m _ _ Np Hp) as Ha. pose proof (here_parent m _ _ Nq Hq) as Hb. specialize (IHN Lk Lj Ha Hb).
      assert (Hk : here m (p ++ [k])) by (apply (s_fam m I p _ Np Hp); auto).
      pose proof (halves_twin p k Np Lk Hk) as Q.
      destruct (T s (side m (p ++ [k]) k)) as [t|], (T s (side m (p ++ [(k + 1) mod 4]) k)) as [t'|]; try contradiction.
      * destruct Q as [q' [j' [Hq' [_ [Lj' [Q1 [Q2 Q3]]]]]]]. rewrite IHN in Q1. injection Q1 as Q1. apply side_inj in Q1; auto.
        destruct Q1 as [-> ->]. congruence.
      * exfalso. apply (Q q j Lj IHN Hb _ Hq).
    + apply (s_kids m I p i H Hp).
    + destruct (s_kids m I p i H Hq) as [_ [E _]].
      destruct (side_good I (p ++ [i]) ((i + 1) mod 4) Hq ltac:(auto)) as [L _]. apply (i_t _ (s_h m I) _ _ L E).
Qed.
(** there is a twin exactly if the same-level neighbour exists *)
Corollary twin_exists p k : here m p -> k < 4 ->
  (T s (side m p k) = None <-> forall q j, nb (radj m) p k q j -> ~ here m q).
Proof.
  intros Hp Lk. split.
  - intros E q j N Hq. destruct (nb_sides _ _ _ _ _ radj_lt N) as [_ [Lj _]]. apply (twin_nb p k q j) in N; auto. congruence.
  - intros H. destruct (T s (side m p k)) as [t|] eqn:E; auto. exfalso.
    destruct (twin_side p k t Hp Lk E) as [q [j [Hq [Lj [-> _]]]]]. apply (H q j); auto. apply twin_nb; auto.
Qed.
End NB.

Lemma split_radj fl p m m' : sinv m -> cell_split fl p m = Ok m' -> forall r k r' j, radj m' r k r' j <-> radj m r k r' j.
Proof.
  intros I E r k r' j. destruct (split_sinv fl p m m' I E) as [I' [X [Hp [_ [Old [Hr _]]]]]].
  pose proof (path_nonempty p Hp) as Np.
  assert (RR : forall r, here m' [r] <-> here m [r]).
  { intros x. rewrite Hr. split; auto. intros [?|[i [_ Ei]]]; auto. destruct p as [|? [|]]; simpl in Ei; congruence. }
  unfold radj. rewrite !RR. split; intros [H1 [H2 [L1 [L2 ET]]]]; repeat split; auto.
  - rewrite !(side_ext m m') in ET by auto. rewrite (e_tn _ _ X) in ET; auto.
    + apply (side_good I); auto.
    + apply (s_root m I); auto.
  - rewrite !(side_ext m m') by auto. rewrite (e_tn _ _ X); auto.
    + apply (side_good I); auto.
    + apply (s_root m I); auto.
Qed.
Lemma nb_adj (adj adj' : nat -> nat -> nat -> nat -> Prop) p k q j : (forall r k r' j, adj r k r' j -> adj' r k r' j) -> nb adj p k q j -> nb adj' p k q j.
Proof. intros A N. induction N; constructor; auto. Qed.
