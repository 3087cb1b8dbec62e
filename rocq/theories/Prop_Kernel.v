(** * C80: kernels and sampled forms *)
From Coq Require Import List Arith Bool QArith Lia.
From Verif Require Import Tree Forest SpecForest Geom SpecGeom Mesh1D Fem SpecFem Dof SpecDof DofVert SpecDofVert Solver Basis Nodal NodalFacts Nodal1 SpecNodal Nodal1Facts Nodal1Main Nodal1Interp Prop_Nodal Kernel SpecKernel.
From Verif Require Prop_Nodal3.
Import ListNotations.
Open Scope Q_scope.

Lemma fold_snoc {A S} (st : S -> A -> res S) l x s : fold_res st (l ++ [x]) s = bind (fold_res st l s) (fun s' => st s' x).
Proof. revert s. induction l as [|y l IH]; intros s; cbn. { destruct (st s x); reflexivity. } destruct (st s y); cbn; [apply IH|reflexivity]. Qed.

Section Sizes.
Context {X D : Type}.
Implicit Types (f : kmap X D) (fs : list (kmap X D)).
Definition sizes_are (n : nat) fs : Prop :=
  (n = 1%nat /\ Forall (fun f => map_samples f = 1%nat) fs) \/
  ((1 < n)%nat /\ Exists (fun f => map_samples f = n) fs /\ Forall (fun f => map_samples f = 1%nat \/ map_samples f = n) fs).
(** n_samples() of a kernel: 1 if all functions are deterministic, otherwise the common
    sample size of the others *)
Theorem C80_sizes : forall fs, Forall (fun f => (0 < map_samples f)%nat) fs ->
  (forall n, sample_size fs = Ok n <-> sizes_are n fs) /\ (forall e, sample_size fs = Err e -> e = AssertionError).
Proof.
  induction fs as [|f fs IH] using rev_ind; intros P.
  - split; [|discriminate]. intros n. unfold sizes_are. cbn. split.
    + intros E. left. split; [congruence|constructor].
    + intros [[-> _]|[_ [E _]]]; [reflexivity|inversion E].
  - apply Forall_app in P. destruct P as [P Pf]. inversion Pf as [|? ? P0 _]; subst. destruct (IH P) as [I1 I2]. clear IH.
    unfold sample_size in *. rewrite fold_snoc. unfold sizes_are in *.
    destruct (fold_res size_step fs 1%nat) as [m|e0] eqn:E; cbn [bind].
    + assert (Im := proj1 (I1 m) eq_refl). unfold size_step. destruct (1 <? map_samples f)%nat eqn:L.
      * apply Nat.ltb_lt in L. destruct (m =? 1)%nat eqn:M.
        -- apply Nat.eqb_eq in M. subst m. destruct Im as [[_ Im]|[Im _]]; [|lia]. split; [|discriminate]. intros n. split.
           ++ intros Q. injection Q as <-. right. split; [exact L|]. split; [apply Exists_app; right; constructor; reflexivity|]. apply Forall_app. split; [eapply Forall_impl; [|exact Im]; cbn; tauto|constructor; [tauto|constructor]].
           ++ intros [[-> Q]|[Q1 [Q2 Q3]]].
              ** apply Forall_app in Q. destruct Q as [_ Q]. inversion Q; lia.
              ** apply Forall_app in Q3. destruct Q3 as [_ Q3]. inversion Q3 as [|? ? Q4 _]; subst. f_equal. lia.
        -- apply Nat.eqb_neq in M. destruct Im as [[Im _]|[Im1 [Im2 Im3]]]; [lia|]. destruct (m =? map_samples f)%nat eqn:N.
           ++ apply Nat.eqb_eq in N. split; [|discriminate]. intros n. split.
              ** intros Q. injection Q as <-. right. split; [exact Im1|]. split; [apply Exists_app; tauto|]. apply Forall_app. split; [exact Im3|constructor; [right; symmetry; exact N|constructor]].
              ** intros [[-> Q]|[Q1 [Q2 Q3]]].
                 --- apply Forall_app in Q. destruct Q as [_ Q]. inversion Q; lia.
                 --- apply Forall_app in Q3. destruct Q3 as [_ Q3]. inversion Q3; f_equal; lia.
           ++ apply Nat.eqb_neq in N. split; [|congruence]. intros n. split; [discriminate|]. intros [[-> Q]|[Q1 [Q2 Q3]]]; exfalso.
              ** apply Forall_app in Q. destruct Q as [_ Q]. inversion Q; lia.
              ** apply Forall_app in Q3. destruct Q3 as [Q4 Q3]. inversion Q3 as [|? ? Q5 _]; subst. assert (n = map_samples f) by lia. subst n.
                 apply Exists_exists in Im2. destruct Im2 as [f' [I' S']]. rewrite Forall_forall in Q4. destruct (Q4 f' I'); lia.
      * apply Nat.ltb_ge in L. assert (S1 : map_samples f = 1%nat) by lia. split; [|discriminate]. intros n. split.
        -- intros Q. injection Q as <-. destruct Im as [[Im1 Im]|[Im1 [Im2 Im3]]]; [left|right].
           ++ split; [exact Im1|]. apply Forall_app. auto.
           ++ split; [exact Im1|]. split; [apply Exists_app; tauto|]. apply Forall_app. split; [exact Im3|constructor; [tauto|constructor]].
        -- intros [[-> Q]|[Q1 [Q2 Q3]]]; apply I1; [left|right].
           ++ apply Forall_app in Q. tauto.
           ++ apply Forall_app in Q3. split; [exact Q1|]. split; [|tauto]. apply Exists_app in Q2. destruct Q2 as [Q2|Q2]; [exact Q2|]. inversion Q2 as [? ? Q4|? ? Q4]; [lia|inversion Q4].
    + split; [|intros e Q; apply I2; congruence]. intros n. split; [discriminate|]. intros Q. exfalso.
      assert (W : sizes_are n fs \/ (Forall (fun f => map_samples f = 1%nat) fs)).
      { destruct Q as [[-> Q]|[Q1 [Q2 Q3]]]; [left; left; apply Forall_app in Q; tauto|]. apply Forall_app in Q3. destruct Q3 as [Q3 _].
        destruct (Exists_dec (fun f => map_samples f = n) fs (fun f => Nat.eq_dec _ _)) as [Y|Y]; [left; right; tauto|]. right. rewrite Forall_forall in *. intros f' I'. destruct (Q3 f' I') as [Q4|Q4]; [exact Q4|]. exfalso. apply Y. apply Exists_exists. exists f'. auto. }
      destruct W as [W|W]; [apply I1 in W; discriminate|]. assert (W1 : Err e0 = Ok 1%nat :> res nat) by (apply I1; left; auto). discriminate.
Qed.
End Sizes.
Print Assumptions C80_sizes.

(** ** evaluation *)
Lemma mr_ok' {A B} (f : A -> res B) l v : map_res f l = Ok v <-> Forall2 (fun a b => f a = Ok b) l v.
Proof.
  revert v. induction l as [|a l IH]; intros v; cbn.
  - split; [intros E; injection E as <-; constructor|intros F; inversion F; reflexivity].
  - destruct (f a) as [b|e] eqn:E; cbn [bind].
    + destruct (map_res f l) as [w|e] eqn:M; cbn [bind].
      * split; [intros Q; injection Q as <-; constructor; [exact E|apply IH; reflexivity]|]. intros F. inversion F as [|? b' ? w' E1 F' K1 K2]; subst. apply IH in F'. congruence.
      * split; [discriminate|]. intros F. inversion F as [|? b' ? w' E1 F']; subst. apply IH in F'. discriminate.
    + split; [discriminate|]. intros F. inversion F; congruence.
Qed.
Section Eval.
Context {X D : Type}.
Implicit Types (f : kmap X D) (fs : list (kmap X D)) (k : kernel X D).

Lemma tile_at n np m v g s : rectangular np m v -> (m = 1 \/ m = n)%nat -> (0 < m)%nat -> (g < np)%nat -> (s < n)%nat ->
  nth s (nth g (tile n v) []) 0 = sample_at v g s.
Proof.
  intros [L F] M M0 G S. unfold tile, sample_at. subst np.
  assert (Fg : length (nth g v []) = m) by (rewrite Forall_forall in F; apply F, nth_In, G).
  assert (F0 : length (nth 0 v []) = m) by (rewrite Forall_forall in F; apply F, nth_In; lia).
  rewrite F0. destruct (1 <? n)%nat eqn:N; cbn [andb].
  - apply Nat.ltb_lt in N. destruct (m =? 1)%nat eqn:E.
    + apply Nat.eqb_eq in E. rewrite (nth_indep _ [] (repeat (nth 0 [] 0) n)) by (rewrite map_length; exact G). rewrite (map_nth (fun r => repeat (nth 0 r 0) n)).
      rewrite (nth_indep _ 0 (nth 0 (nth g v []) 0)) by (rewrite repeat_length; exact S). rewrite nth_repeat. destruct (nth g v []) as [|c [|c' r]]; cbn in Fg |- *; try lia. reflexivity.
    + apply Nat.eqb_neq in E. destruct (nth g v []) as [|c [|c' r]]; cbn in Fg; try lia. reflexivity.
  - apply Nat.ltb_ge in N. assert (s = 0%nat) by lia. subst s. destruct (nth g v []) as [|c [|c' r]]; reflexivity.
Qed.
Lemma tile_rect n np m v : rectangular np m v -> (m = 1 \/ m = n)%nat -> (0 < m)%nat -> (0 < n)%nat -> rectangular np n (tile n v).
Proof.
  intros [L F] M M0 N0. unfold tile. destruct v as [|r v]; cbn [nth length].
  { subst np. rewrite andb_false_r. split; [reflexivity|constructor]. }
  assert (Fr : length r = m) by (inversion F; assumption). rewrite Fr. destruct (1 <? n)%nat eqn:N; cbn [andb].
  - destruct (m =? 1)%nat eqn:E.
    + split; [rewrite map_length; exact L|]. apply Forall_forall. intros q I. apply in_map_iff in I. destruct I as [q' [<- _]]. apply repeat_length.
    + apply Nat.eqb_neq in E. split; [exact L|]. eapply Forall_impl; [|exact F]. cbn. lia.
  - apply Nat.ltb_ge in N. split; [exact L|]. eapply Forall_impl; [|exact F]. cbn. lia.
Qed.
Lemma map_eval_rect f d x phi dofs v : keeps f -> (forall p, phi = Some p -> Forall (fun q => length (snd q) = length x) p) ->
  map_eval f d x phi dofs = Ok v -> rectangular (length x) (map_samples f) v.
Proof.
  intros [K0 K] P E. destruct f as [ns ev|ns b ev evp]; cbn in *; [apply K, E|]. destruct K as [K1 K2].
  destruct phi as [p|]; cbn in E; [|destruct dofs as [q|]; cbn in E; [destruct (get b q) as [w|]; cbn in E; [|discriminate]|]; apply (K1 d); exact E].
  destruct (get b p) as [w|] eqn:G; cbn in E; [|discriminate].
  assert (LW : length w = length x).
  { unfold get in G. destruct (find _ p) as [q|] eqn:FF; [|discriminate]. injection G as <-. apply find_some in FF. specialize (P p eq_refl). rewrite Forall_forall in P. apply P. tauto. }
  destruct dofs as [q|]; cbn in E; [|apply (K1 d); exact E]. destruct (get b q) as [z|]; cbn in E; [|discriminate]. rewrite <- LW. apply (K2 w z); exact E.
Qed.
(** a kernel made by the constructor from functions that keep their promise *)
Definition made fs k : Prop := Forall keeps fs /\ exists d F, make_kernel fs d F = Ok k.
Lemma made_inv fs k : made fs k -> k_f k = fs /\ length (k_d k) = length fs /\ sizes_are (k_n k) fs.
Proof.
  intros [K [d [F E]]]. assert (K0 : Forall (fun f => (0 < map_samples f)%nat) fs) by (eapply Forall_impl; [|exact K]; cbn; intros a [H _]; exact H).
  unfold make_kernel in E.
  match type of E with bind ?A _ = _ => destruct A as [ds|] eqn:EA; cbn [bind] in E; [|discriminate] end.
  match type of E with bind ?A _ = _ => destruct A as [F'|] eqn:EF; cbn [bind] in E; [|discriminate] end.
  destruct (sample_size fs) as [n|] eqn:S; cbn [bind] in E; [|discriminate]. injection E as <-. cbn. split; [reflexivity|]. split.
  - destruct d as [|l|d0]; [injection EA as <-; apply map_length| |injection EA as <-; apply map_length]. destruct (length l =? length fs)%nat eqn:Q; [|discriminate]. apply Nat.eqb_eq in Q. congruence.
  - apply (proj1 (C80_sizes fs K0)). exact S.
Qed.
(** eval: F of the values of the functions, sample by sample *)
Theorem C80_eval : forall fs k x phi dofs, made fs k ->
  (forall p, phi = Some p -> Forall (fun q => length (snd q) = length x) p) ->
  (forall vs, Forall2 (fun fd v => map_eval (fst fd) (snd fd) x phi dofs = Ok v) (combine fs (k_d k)) vs ->
   exists V, kernel_eval k x phi dofs = Ok V /\ rectangular (length x) (k_n k) V /\
     forall g s, (g < length x)%nat -> (s < k_n k)%nat -> nth s (nth g V []) 0 = k_F k (map (fun v => sample_at v g s) vs)) /\
  (forall V, kernel_eval k x phi dofs = Ok V -> exists vs, Forall2 (fun fd v => map_eval (fst fd) (snd fd) x phi dofs = Ok v) (combine fs (k_d k)) vs).
Proof.
  intros fs k x phi dofs Mk P. destruct (made_inv fs k Mk) as [Kf [Kd Kn]]. destruct Mk as [Kp _]. split.
  - intros vs F. unfold kernel_eval. rewrite Kf. rewrite (proj2 (mr_ok' _ _ _) F). cbn [bind]. unfold apply_F.
    assert (N0 : (0 < k_n k)%nat) by (destruct Kn as [[-> _]|[H _]]; lia).
    assert (R : Forall (fun v => exists m, rectangular (length x) m v /\ (m = 1 \/ m = k_n k)%nat /\ (0 < m)%nat) vs).
    { apply Forall_forall. intros v I. assert (Q : exists fd, In fd (combine fs (k_d k)) /\ map_eval (fst fd) (snd fd) x phi dofs = Ok v).
      { clear - F I. induction F as [|a b l l' H F IH]; [destruct I|]. destruct I as [->|I]; [exists a; cbn; tauto|]. destruct (IH I) as [fd [Q1 Q2]]. exists fd. cbn. tauto. }
      destruct Q as [[f d] [I1 Q]]. cbn [fst snd] in Q. apply in_combine_l in I1. rewrite Forall_forall in Kp. exists (map_samples f). split; [apply (map_eval_rect f d x phi dofs v (Kp f I1) P Q)|].
      split; [|apply (Kp f I1)]. destruct Kn as [[-> Kn]|[_ [_ Kn]]]; rewrite Forall_forall in Kn; [left|]; apply Kn; exact I1. }
    assert (B : forallb (fun v => (length v =? length x)%nat && forallb (fun r => (length r =? k_n k)%nat) v) (map (tile (k_n k)) vs) = true).
    { apply forallb_forall. intros w I. apply in_map_iff in I. destruct I as [v [<- I]]. rewrite Forall_forall in R. destruct (R v I) as [m [R1 [R2 R3]]].
      destruct (tile_rect (k_n k) (length x) m v R1 R2 R3 N0) as [T1 T2]. rewrite T1, Nat.eqb_refl. apply forallb_forall. intros r Ir. rewrite Forall_forall in T2. rewrite (T2 r Ir). apply Nat.eqb_refl. }
    rewrite B. eexists. split; [reflexivity|]. split.
    + split; [rewrite map_length, seq_length; reflexivity|]. apply Forall_forall. intros r I. apply in_map_iff in I. destruct I as [i [<- _]]. rewrite map_length, seq_length. reflexivity.
    + intros g s G S. rewrite (nth_indep _ [] ((fun i => map (fun s => k_F k (map (fun v => nth s (nth i v []) 0) (map (tile (k_n k)) vs))) (seq 0 (k_n k))) 0%nat)) by (rewrite map_length, seq_length; exact G).
      rewrite (map_nth (fun i => map (fun s => k_F k (map (fun v => nth s (nth i v []) 0) (map (tile (k_n k)) vs))) (seq 0 (k_n k)))), seq_nth by exact G. cbn [Nat.add].
      rewrite (nth_indep _ 0 ((fun s => k_F k (map (fun v => nth s (nth g v []) 0) (map (tile (k_n k)) vs))) 0%nat)) by (rewrite map_length, seq_length; exact S).
      rewrite (map_nth (fun s => k_F k (map (fun v => nth s (nth g v []) 0) (map (tile (k_n k)) vs)))), seq_nth by exact S. cbn [Nat.add]. f_equal. rewrite map_map. apply map_ext_in. intros v I.
      rewrite Forall_forall in R. destruct (R v I) as [m [R1 [R2 R3]]]. apply (tile_at _ (length x) m); assumption.
  - intros V E. unfold kernel_eval in E. rewrite Kf in E. destruct (map_res _ (combine fs (k_d k))) as [vs|] eqn:M; [|discriminate]. exists vs. apply mr_ok'. exact M.
Qed.

(** ** forms *)
Lemma nth_map' {A B} (h : A -> B) l i d d' : (i < length l)%nat -> nth i (map h l) d = h (nth i l d').
Proof. intros L. rewrite (nth_indep _ d (h d')) by (rewrite map_length; exact L). apply map_nth. Qed.
Lemma nth_seq_map {B} (h : nat -> B) n i d : (i < n)%nat -> nth i (map h (seq 0 n)) d = h i.
Proof. intros L. rewrite (nth_map' h _ i d 0%nat) by (rewrite seq_length; exact L). rewrite seq_nth by exact L. reflexivity. Qed.
Lemma combine_nth' {A B} (l : list A) (l' : list B) i da db : (i < length l)%nat -> length l = length l' -> nth i (combine l l') (da, db) = (nth i l da, nth i l' db).
Proof. intros _ E. apply combine_nth. exact E. Qed.
Lemma map_as_seq {A B} (h : A -> B) l d : map h l = map (fun i => h (nth i l d)) (seq 0 (length l)).
Proof.
  induction l as [|a l IH]; [reflexivity|]. cbn [length seq map nth]. f_equal. rewrite <- seq_shift, map_map. cbn [nth]. exact IH.
Qed.
Lemma qsum_ext {A} (h h' : A -> Q) l : (forall a, In a l -> h a == h' a) -> qsum (map h l) == qsum (map h' l).
Proof. induction l as [|a l IH]; intros E; cbn; [reflexivity|]. rewrite (E a (or_introl eq_refl)), IH; [reflexivity|]. intros b I. apply E. right. exact I. Qed.
Lemma weighted_len w v : length w = length v -> length (weighted w v) = length v.
Proof. intros L. unfold weighted. rewrite map_length, combine_length, L. apply Nat.min_id. Qed.
Lemma weighted_at w v n g s : length w = length v -> (g < length v)%nat -> Forall (fun r => length r = n) v -> (s < n)%nat ->
  nth s (nth g (weighted w v) []) 0 = nth g w 0 * nth s (nth g v []) 0.
Proof.
  intros L G F S. unfold weighted. rewrite (nth_map' _ _ g [] (0, [])) by (rewrite combine_length; lia). rewrite combine_nth' by lia. cbn [fst snd].
  rewrite (nth_map' _ _ s 0 0); [reflexivity|]. rewrite Forall_forall in F. rewrite (F (nth g v [])); [exact S|]. apply nth_In. exact G.
Qed.
Lemma weighted_rows w v n : Forall (fun r => length r = n) v -> Forall (fun r => length r = n) (weighted w v).
Proof.
  intros F. apply Forall_forall. intros r I. unfold weighted in I. apply in_map_iff in I. destruct I as [[c q] [<- I]]. cbn. rewrite map_length. apply in_combine_r in I. rewrite Forall_forall in F. apply F. exact I.
Qed.
Lemma dot_T_at na n A B a s : length A = length B -> (a < na)%nat -> (s < n)%nat ->
  nth s (nth a (dot_T na n A B) []) 0 = qsum (map (fun g => nth a (nth g A []) 0 * nth s (nth g B []) 0) (seq 0 (length B))).
Proof.
  intros L Ha S. unfold dot_T. rewrite (nth_seq_map _ na a []) by exact Ha. rewrite (nth_seq_map _ n s 0) by exact S. f_equal.
  rewrite (map_as_seq _ (combine A B) ([], [])). rewrite combine_length, L, Nat.min_id. apply map_ext_in. intros g I. apply in_seq in I. rewrite combine_nth' by lia. reflexivity.
Qed.
Lemma dot_T_rect na n A B : rectangular na n (dot_T na n A B).
Proof. split; [unfold dot_T; rewrite map_length, seq_length; reflexivity|]. apply Forall_forall. intros r I. apply in_map_iff in I. destruct I as [a [<- _]]. rewrite map_length, seq_length. reflexivity. Qed.
Lemma add_rows_at A B s : length A = length B -> (s < length A)%nat -> nth s (add_rows A B) 0 = nth s A 0 + nth s B 0.
Proof. intros L S. unfold add_rows. rewrite (nth_map' _ _ s 0 (0, 0)) by (rewrite combine_length; lia). rewrite combine_nth' by lia. reflexivity. Qed.
Lemma add_rows_len A B : length A = length B -> length (add_rows A B) = length A.
Proof. intros L. unfold add_rows. rewrite map_length, combine_length. lia. Qed.
Lemma add_tab_at na n A B a s : rectangular na n A -> rectangular na n B -> (a < na)%nat -> (s < n)%nat ->
  nth s (nth a (add_tab A B) []) 0 = nth s (nth a A []) 0 + nth s (nth a B []) 0.
Proof.
  intros [L1 F1] [L2 F2] Ha S. unfold add_tab. rewrite (nth_map' _ _ a [] ([], [])) by (rewrite combine_length; lia). rewrite combine_nth' by lia. cbn [fst snd].
  rewrite Forall_forall in F1, F2. assert (E1 := F1 (nth a A []) ltac:(apply nth_In; lia)). assert (E2 := F2 (nth a B []) ltac:(apply nth_In; lia)). apply add_rows_at; lia.
Qed.
Lemma add_tab_rect na n A B : rectangular na n A -> rectangular na n B -> rectangular na n (add_tab A B).
Proof.
  intros [L1 F1] [L2 F2]. unfold add_tab. split; [rewrite map_length, combine_length; lia|]. apply Forall_forall. intros r I. apply in_map_iff in I. destruct I as [[p q] [<- I]]. cbn [fst snd].
  rewrite Forall_forall in F1, F2. assert (E1 := F1 p (in_combine_l _ _ _ _ I)). assert (E2 := F2 q (in_combine_r _ _ _ _ I)). rewrite add_rows_len; lia.
Qed.
Lemma zeros_at n s : nth s (zeros n) 0 = 0.
Proof. apply nth_repeat. Qed.
Lemma zeros_rect na n : rectangular na n (repeat (zeros n) na).
Proof. split; [apply repeat_length|]. apply Forall_forall. intros r I. apply repeat_spec in I. subst r. apply repeat_length. Qed.
Lemma zeros2_at na n a s : nth s (nth a (repeat (zeros n) na) []) 0 = 0.
Proof. destruct (Nat.lt_ge_cases a na) as [L|L]; [rewrite (nth_indep _ [] (zeros n)) by (rewrite repeat_length; exact L); rewrite nth_repeat; apply zeros_at|]. rewrite (nth_overflow (repeat (zeros n) na)) by (rewrite repeat_length; exact L). destruct s; reflexivity. Qed.

Lemma wker_at fs k r v : made fs k -> region_ok r -> wker k r = Ok v ->
  rectangular (length (r_w r)) (k_n k) v /\ forall g s, (g < length (r_w r))%nat -> (s < k_n k)%nat -> nth s (nth g v []) 0 = nth g (r_w r) 0 * kernel_value k r g s.
Proof.
  intros Mk [R1 R2] E. unfold wker in E. destruct (kernel_eval k (r_x r) (Some (r_phi r)) (Some (r_dofs r))) as [V|] eqn:KE; [|discriminate]. cbn [bind] in E.
  assert (PP : forall p, Some (r_phi r) = Some p -> Forall (fun q => length (snd q) = length (r_x r)) p) by (intros p Q; injection Q as <-; exact R2).
  destruct (C80_eval fs k (r_x r) (Some (r_phi r)) (Some (r_dofs r)) Mk PP) as [T1 T2]. destruct (T2 V KE) as [vs F]. destruct (T1 vs F) as [V' [E' [[V1 V2] V3]]]. assert (V' = V) by congruence. subst V'.
  destruct (length V =? length (r_w r))%nat eqn:LQ; [|discriminate]. apply Nat.eqb_eq in LQ. injection E as <-. split.
  - split; [rewrite weighted_len; congruence|]. apply weighted_rows. exact V2.
  - intros g s G S. rewrite (weighted_at _ _ (k_n k)); try assumption; try congruence. f_equal. rewrite V3 by (try assumption; congruence). unfold kernel_value. f_equal.
    destruct (made_inv fs k Mk) as [Kf _]. rewrite Kf. clear - F. induction F as [|fd w l l' H F IH]; [reflexivity|]. cbn [map]. rewrite IH. f_equal. unfold function_value. rewrite H. reflexivity.
Qed.
Lemma get_len (r : region X) b t : region_ok r -> get b (r_phi r) = Ok t -> length t = length (r_w r).
Proof.
  intros [R1 R2] G. unfold get in G. destruct (find _ (r_phi r)) as [q|] eqn:FF; [|discriminate]. injection G as <-. apply find_some in FF. rewrite Forall_forall in R2. rewrite R1. apply R2. tauto.
Qed.
Lemma quadrature_cons (r : region X) rs fn : quadrature (r :: rs) fn = qsum (map (fun g => nth g (r_w r) 0 * fn r g) (seq 0 (length (r_w r)))) + quadrature rs fn.
Proof. reflexivity. Qed.

(** Form.eval: sample s of a constant, linear or bilinear form is the quadrature of
    F(f1, f2, ..) in sample s times the shape functions *)
Theorem C80_constant : forall fs k rs c, made fs k -> Forall region_ok rs -> eval_constant k rs = Ok c ->
  length c = k_n k /\ forall s, (s < k_n k)%nat -> nth s c 0 == quadrature rs (fun r g => kernel_value k r g s).
Proof.
  intros fs k rs c Mk R E. unfold eval_constant in E.
  assert (G : forall acc, length acc = k_n k -> fold_res (fun acc r => bind (wker k r) (fun v => Ok (add_rows acc (map (fun s => qsum (column v s)) (seq 0 (k_n k)))))) rs acc = Ok c ->
    length c = k_n k /\ forall s, (s < k_n k)%nat -> nth s c 0 == nth s acc 0 + quadrature rs (fun r g => kernel_value k r g s)).
  { clear E. induction R as [|r rs Hr R IH]; intros acc La E.
    - cbn in E. injection E as <-. split; [exact La|]. intros s S. unfold quadrature. cbn. ring.
    - cbn [fold_res] in E. destruct (wker k r) as [v|] eqn:W; cbn [bind] in E; [|discriminate]. destruct (wker_at fs k r v Mk Hr W) as [[V1 V2] V3].
      apply IH in E; [|rewrite add_rows_len; [exact La|rewrite map_length, seq_length; exact La]]. destruct E as [E1 E2]. split; [exact E1|]. intros s S. rewrite (E2 s S).
      rewrite add_rows_at by (rewrite ?map_length, ?seq_length; lia). rewrite nth_seq_map by exact S. rewrite quadrature_cons.
      assert (Q : qsum (column v s) == qsum (map (fun g => nth g (r_w r) 0 * kernel_value k r g s) (seq 0 (length (r_w r))))).
      { unfold column. rewrite (map_as_seq _ v []). rewrite V1. apply qsum_ext. intros g I. apply in_seq in I. rewrite V3 by lia. reflexivity. }
      rewrite Q. ring. }
  destruct (G (zeros (k_n k)) (repeat_length _ _) E) as [G1 G2]. split; [exact G1|]. intros s S. rewrite (G2 s S), zeros_at. ring.
Qed.
Theorem C80_linear : forall fs k test nt rs L, made fs k -> Forall region_ok rs -> eval_linear k test nt rs = Ok L ->
  rectangular nt (k_n k) L /\ forall a s, (a < nt)%nat -> (s < k_n k)%nat ->
  nth s (nth a L []) 0 == quadrature rs (fun r g => kernel_value k r g s * shape_value test r g a).
Proof.
  intros fs k test nt rs L Mk R E. unfold eval_linear in E.
  match type of E with fold_res ?st rs ?i = _ => set (step := st) in E end.
  assert (G : forall acc, rectangular nt (k_n k) acc -> fold_res step rs acc = Ok L ->
    rectangular nt (k_n k) L /\ forall a s, (a < nt)%nat -> (s < k_n k)%nat -> nth s (nth a L []) 0 == nth s (nth a acc []) 0 + quadrature rs (fun r g => kernel_value k r g s * shape_value test r g a)).
  { clear E. induction R as [|r rs Hr R IH]; intros acc La E.
    - cbn in E. injection E as <-. split; [exact La|]. intros a s Ha S. unfold quadrature. cbn. ring.
    - cbn [fold_res] in E. unfold step in E at 1. destruct (wker k r) as [v|] eqn:W; cbn [bind] in E; [|discriminate]. destruct (wker_at fs k r v Mk Hr W) as [[V1 V2] V3].
      destruct (get test (r_phi r)) as [t|] eqn:T; cbn [bind] in E; [|discriminate]. destruct (length t =? length v)%nat eqn:TL; cbn [bind] in E; [|discriminate]. apply Nat.eqb_eq in TL.
      apply IH in E; [|apply add_tab_rect; [exact La|apply dot_T_rect]]. destruct E as [E1 E2]. split; [exact E1|]. intros a s Ha S. rewrite (E2 a s Ha S).
      rewrite (add_tab_at nt (k_n k)) by (try assumption; apply dot_T_rect). rewrite dot_T_at by assumption. rewrite quadrature_cons.
      assert (Q : qsum (map (fun g => nth a (nth g t []) 0 * nth s (nth g v []) 0) (seq 0 (length v))) == qsum (map (fun g => nth g (r_w r) 0 * (kernel_value k r g s * shape_value test r g a)) (seq 0 (length (r_w r))))).
      { rewrite V1. apply qsum_ext. intros g I. apply in_seq in I. rewrite V3 by lia. unfold shape_value. rewrite T. ring. }
      rewrite Q. ring. }
  destruct (G _ (zeros_rect nt (k_n k)) E) as [G1 G2]. split; [exact G1|]. intros a s Ha S. rewrite (G2 a s Ha S), zeros2_at. ring.
Qed.
Theorem C80_bilinear : forall fs k test trial nt nu rs L, made fs k -> Forall region_ok rs -> eval_bilinear k test trial nt nu rs = Ok L ->
  length L = nu /\ Forall (rectangular nt (k_n k)) L /\ forall a b s, (a < nt)%nat -> (b < nu)%nat -> (s < k_n k)%nat ->
  nth s (nth a (nth b L []) []) 0 == quadrature rs (fun r g => kernel_value k r g s * shape_value test r g a * shape_value trial r g b).
Proof.
  intros fs k test trial nt nu rs L Mk R E. unfold eval_bilinear in E.
  match type of E with fold_res ?st rs ?i = _ => set (step := st) in E end.
  assert (G : forall acc, length acc = nu -> Forall (rectangular nt (k_n k)) acc -> fold_res step rs acc = Ok L ->
    length L = nu /\ Forall (rectangular nt (k_n k)) L /\ forall a b s, (a < nt)%nat -> (b < nu)%nat -> (s < k_n k)%nat -> nth s (nth a (nth b L []) []) 0 == nth s (nth a (nth b acc []) []) 0 + quadrature rs (fun r g => kernel_value k r g s * shape_value test r g a * shape_value trial r g b)).
  { clear E. induction R as [|r rs Hr R IH]; intros acc Ln La E.
    - cbn in E. injection E as <-. split; [exact Ln|]. split; [exact La|]. intros a b s Ha Hb S. unfold quadrature. cbn. ring.
    - cbn [fold_res] in E. unfold step in E at 1. destruct (wker k r) as [v|] eqn:W; cbn [bind] in E; [|discriminate]. destruct (wker_at fs k r v Mk Hr W) as [[V1 V2] V3].
      destruct (get test (r_phi r)) as [t|] eqn:T; cbn [bind] in E; [|discriminate]. destruct (get trial (r_phi r)) as [u|] eqn:U; cbn [bind] in E; [|discriminate].
      destruct ((length t =? length v)%nat && (length u =? length v)%nat) eqn:TL; cbn [bind] in E; [|discriminate]. apply andb_true_iff in TL. destruct TL as [TL UL]. apply Nat.eqb_eq in TL, UL.
      assert (CL : forall b, length (column u b) = length v) by (intros b; unfold column; rewrite map_length; exact UL).
      apply IH in E.
      + destruct E as [E1 [E2 E3]]. split; [exact E1|]. split; [exact E2|]. intros a b s Ha Hb S. rewrite (E3 a b s Ha Hb S).
        rewrite (nth_map' _ _ b [] (0%nat, [])) by (rewrite combine_length, seq_length; lia). rewrite combine_nth' by (rewrite ?seq_length; lia). rewrite seq_nth by exact Hb. cbn [fst snd Nat.add].
        rewrite (add_tab_at nt (k_n k)) by (try assumption; try apply dot_T_rect; rewrite Forall_forall in La; apply La, nth_In; lia).
        rewrite dot_T_at by (rewrite ?weighted_len by apply CL; assumption). rewrite weighted_len by apply CL. rewrite quadrature_cons.
        match goal with |- _ + ?A + _ == _ + (?B + _) => assert (Q : A == B) end.
        { rewrite V1. apply qsum_ext. intros g I. apply in_seq in I. rewrite (weighted_at _ _ (k_n k)) by (try apply CL; try assumption; lia). rewrite V3 by lia. unfold shape_value. rewrite T, U.
          unfold column. rewrite (nth_map' _ u g 0 []) by lia. ring. }
        rewrite Q. ring.
      + rewrite map_length, combine_length, seq_length. lia.
      + apply Forall_forall. intros q I. apply in_map_iff in I. destruct I as [[i p] [<- I]]. cbn [fst snd]. apply add_tab_rect; [|apply dot_T_rect]. rewrite Forall_forall in La. apply La. apply in_combine_r in I. exact I. }
  destruct (G (repeat (repeat (zeros (k_n k)) nt) nu) (repeat_length _ _)) as [G1 [G2 G3]]; [|exact E|].
  { apply Forall_forall. intros q I. apply repeat_spec in I. subst q. apply zeros_rect. }
  split; [exact G1|]. split; [exact G2|]. intros a b s Ha Hb S. rewrite (G3 a b s Ha Hb S).
  rewrite (nth_indep _ [] (repeat (zeros (k_n k)) nt)) by (rewrite repeat_length; exact Hb). rewrite nth_repeat, zeros2_at. ring.
Qed.
End Eval.
Print Assumptions C80_eval.
Print Assumptions C80_constant.
Print Assumptions C80_linear.
Print Assumptions C80_bilinear.

(** ** the maps of the code keep their promise *)
Lemma set_nth_len {A} i (x : A) l : length (set_nth i x l) = length l.
Proof. revert i. induction l as [|y l IH]; intros [|i]; cbn; auto. Qed.
Lemma put_block_len pts cols phi M : length (put_block pts cols phi M) = length M.
Proof. unfold put_block. generalize (combine pts phi) as l. intros l. revert M. induction l as [|q l IH]; intros M; cbn; [reflexivity|]. rewrite IH. apply set_nth_len. Qed.
Lemma global_phi_len {P} (b : list P -> res binned) cd sh sl xs M u : global_phi b cd sh sl xs = Ok (M, u) -> length M = length xs.
Proof.
  unfold global_phi. destruct (b xs) as [bs|]; cbn [bind]; [|discriminate]. destruct (map_res (locate cd sh xs) bs) as [ls|]; cbn [bind]; [|discriminate].
  destruct (fold_res _ ls _) as [M'|] eqn:E; cbn [bind]; [|discriminate]. intros Q. injection Q as <- _.
  remember (repeat (repeat 0 (length (sl (flat_map lc_dofs ls)))) (length xs)) as M0 eqn:E0. assert (L0 : length M0 = length xs) by (rewrite E0; apply repeat_length). clear E0.
  generalize dependent M0. generalize (sl (flat_map lc_dofs ls)) as u0. induction ls as [|l ls IH]; intros u0 M0 E L0; cbn in E; [congruence|].
  destruct (put_bin u0 M0 l) as [M1|] eqn:E1; cbn [bind] in E; [|discriminate]. apply (IH u0 M1 E). unfold put_bin in E1. destruct (map_res (col_of u0) (lc_dofs l)) as [cols|]; cbn [bind] in E1; [|discriminate].
  destruct (forallb _ (lc_phi l)); [|discriminate]. injection E1 as <-. rewrite put_block_len. exact L0.
Qed.
Lemma eval_phi_rect nd p ds v : eval_phi nd p ds = Ok v -> rectangular (length p) (n_samples (nd_data nd)) v.
Proof.
  unfold eval_phi. destruct (map_res _ ds) as [idx|]; cbn [bind]; [|discriminate]. destruct (map_res (take (nd_data nd)) idx) as [loc|]; cbn [bind]; [|discriminate].
  intros E. apply mr_ok' in E. split; [symmetry; clear - E; induction E; cbn; congruence|]. induction E as [|r w l l' H F IH]; constructor; [|exact IH].
  destruct (length r =? length loc)%nat; [|discriminate]. injection H as <-. unfold contract. rewrite map_length, seq_length. reflexivity.
Qed.
(** Nodal functions on 1D meshes (evaluation at points searches the mesh), explicit and
    constant functions *)
Definition nodal_map1 e (f : forest itv) sf s sl (b : nat) (nd : nodal (list Q)) : kmap Q deriv :=
  KNodal (n_samples (nd_data nd)) b (fun d xs => nodal_eval1 e f sf s sl None (match d with Some d => d | None => V0 end) nd xs) (eval_phi nd).
Definition explicit_map {K : Type} (r : list (K -> Q -> Q) * list K) : kmap Q deriv := KExplicit (length (fst r)) (explicit_eval r).
Definition constant_map (data : list Q) : kmap Q deriv := KExplicit (length data) (fun xs => Ok (constant_eval data xs)).
Theorem C80_maps :
  (forall e f sf s sl b nd, (0 < n_samples (nd_data nd))%nat -> keeps (nodal_map1 e f sf s sl b nd)) /\
  (forall (K : Type) (r : list (K -> Q -> Q) * list K), fst r <> [] -> keeps (explicit_map r)) /\
  (forall data, data <> [] -> keeps (constant_map data)).
Proof.
  split; [|split].
  - intros e f sf s sl b nd N. split; [exact N|]. cbn. split; [|intros p ds v; apply eval_phi_rect].
    intros d xs v E. unfold nodal_eval1, eval_x in E. destruct (global_phi _ _ _ sl xs) as [[M u]|] eqn:G; cbn [bind] in E; [|discriminate]. rewrite <- (global_phi_len _ _ _ _ _ _ _ G). apply (eval_phi_rect nd M u). exact E.
  - intros K [fs ps] N. cbn in N. split; [cbn; destruct fs; [congruence|cbn; lia]|]. cbn [explicit_map]. intros xs v E. unfold explicit_eval in E. cbn [fst snd] in *.
    destruct (map_res _ _) as [hs|] eqn:M; cbn [bind] in E; [|discriminate]. injection E as <-. apply mr_ok' in M.
    assert (LH : length hs = length fs).
    { assert (W : forall (A B : Type) (R : A -> B -> Prop) l l', Forall2 R l l' -> length l = length l') by (intros A B R l l' F; induction F; cbn; congruence). apply W in M. rewrite <- M, seq_length.
      destruct (1 <? length fs)%nat eqn:L; [reflexivity|]. apply Nat.ltb_ge in L. destruct fs; [congruence|]. cbn in *. lia. }
    split; [apply map_length|]. apply Forall_forall. intros r I. apply in_map_iff in I. destruct I as [x [<- _]]. rewrite map_length. exact LH.
  - intros data N. split; [cbn; destruct data; [congruence|cbn; lia]|]. cbn. intros xs v E. injection E as <-. unfold constant_eval. split; [apply map_length|].
    apply Forall_forall. intros r I. apply in_map_iff in I. destruct I as [x [<- _]]. reflexivity.
Qed.
Print Assumptions C80_maps.

(** In assembly, a nodal function of the kernel has the values of the finite element function
    (or the derivative of its basis) in the cell, for every sample *)
Theorem C80_assembly periodic a b e (f : forest itv) sf s dv L B data ns sl basis d der p (n : node itv) xs phi PHI ds DOFS :
  in_use periodic a b e f sf s dv L B -> array_of (length L) ns data -> fget f p = Some n -> is_leaf_of sf n ->
  (forall x, In x xs -> fst (n_data n) <= x <= snd (n_data n)) ->
  map_res (shapes1 e f der p) xs = Ok phi -> cell_dofs1 s p = Some ds -> get basis PHI = Ok phi -> get basis DOFS = Ok ds ->
  exists R, map_eval (nodal_map1 e f sf s sl basis (mkNodal B data)) d xs (Some PHI) (Some DOFS) = Ok R /\ length R = length xs /\
    forall j x r, nth_error xs j = Some x -> nth_error R j = Some r -> length r = ns /\
      forall t v, (t < ns)%nat -> nodal_values L data t v -> value_in e f s v der p x (nth t r 0).
Proof.
  intros U A Ep Lp Hx Es Ed G1 G2. apply mr_ok' in Es.
  assert (Sq : sub_leaf f sf p) by (exists n; auto).
  destruct (use_filled U p (leaf_sub p Sq)) as [Fq Iq]. destruct (cell_dofs_filled s p _ Fq Iq) as [ds' [Ed' [Ld [_ Hk]]]]. rewrite Ed in Ed'. injection Ed' as <-.
  destruct (use_leaf_width U p n Ep Lp) as [W _].
  assert (LP : length phi = length xs) by (clear - Es; induction Es; cbn; congruence).
  assert (LR : forall r, In r phi -> length r = length ds).
  { intros r I. clear - Es I Ep W Hx Ld. induction Es as [|x r' xs phi H F IH]; [destruct I|]. destruct I as [->|I]; [|apply IH; [intros y Hy; apply Hx; right; exact Hy|exact I]].
    destruct (shapes_row e f der p n x Ep W (Hx x (or_introl eq_refl))) as [row [Er [Lr _]]]. rewrite H in Er. injection Er as <-. congruence. }
  assert (HD : forall q, In q ds -> In q L).
  { intros q I. apply In_nth_error in I. destruct I as [k I]. apply (use_L U). exists p, k. split; [exact Sq|]. apply Hk. exact I. }
  destruct (C60_coefficients periodic a b e f sf s dv L B data ns phi ds U A HD LR) as [R [ER [LRR HR]]]. exists R.
  split; [cbn; rewrite G1, G2; exact ER|]. split; [congruence|]. intros j x r Ex Er.
  assert (Q : exists row, nth_error phi j = Some row /\ shapes1 e f der p x = Ok row).
  { clear - Es Ex. revert j Ex. induction Es as [|y r' xs phi H F IH]; intros [|j] Ex; cbn in Ex; try discriminate; [injection Ex as <-; exists r'; auto|apply (IH j Ex)]. }
  destruct Q as [row [Er1 Er2]]. destruct (HR j row r Er1 Er) as [Q1 Q2]. split; [exact Q1|]. intros t v Ht V. specialize (Q2 t v Ht V).
  apply nth_error_In in Ex. apply (value_in_proper U v v der p x _ _ (fun d _ => Qeq_refl (v d)) Sq (Qeq_sym _ _ Q2)).
  exact (cell_value e f s v der p n ds row x Ep W (Hx x Ex) Ld Hk Er2).
Qed.
Print Assumptions C80_assembly.

(** A kernel that asks for the derivative of a nodal function: evaluated at points it is
    the derivative, in assembly (shape functions given) it is the function *)
Definition kx_p : path := [0%nat; 1%nat].
Definition kx_nd : nodal (list Q) := Prop_Nodal3.nx_nd false Q1.
Definition kx_u : kmap Q deriv := nodal_map1 Q1 Prop_Nodal3.nx_f None (fst (Prop_Nodal3.nx_sv false Q1)) Prop_Nodal3.sorted_set 0%nat kx_nd.
Definition kx_ok {X} (d : X) (r : res X) : X := match r with Ok x => x | Err _ => d end.
Definition kx_k : kernel Q deriv := kx_ok (mkKernel [] [] (fun _ => 0) 1) (make_kernel [kx_u] (DOne (V1 0)) None).
Definition kx_phi : list (nat * table) := [(0%nat, kx_ok [] (map_res (shapes1 Q1 Prop_Nodal3.nx_f V0 kx_p) [3 # 8; 2 # 5]))].
Definition kx_dofs : list (nat * list nat) := [(0%nat, match cell_dofs1 (fst (Prop_Nodal3.nx_sv false Q1)) kx_p with Some l => l | None => [] end)].
Definition kx_red (r : res table) : res table := bind r (fun v => Ok (map (map Qred) v)).
Lemma made_one {X D} (u : kmap X D) (d : D) : make_kernel [u] (DOne d) None = bind (sample_size [u]) (fun n => Ok (mkKernel [u] [Some d] (fun v => nth 0 v 0) n)).
Proof. reflexivity. Qed.
Theorem C80_derivative_refuted : made [kx_u] kx_k /\
  kx_red (kernel_eval kx_k [3 # 8; 2 # 5] None None) = Ok [[1 # 4; 0]; [1 # 4; 0]] /\
  kx_red (kernel_eval kx_k [3 # 8; 2 # 5] (Some kx_phi) (Some kx_dofs)) = Ok [[7 # 32; 3]; [9 # 40; 3]].
Proof.
  split.
  - assert (E : sample_size [kx_u] = Ok 2%nat) by (vm_compute; reflexivity). assert (N : n_samples (nd_data kx_nd) = 2%nat) by (vm_compute; reflexivity).
    split.
    + constructor; [|constructor]. apply (proj1 C80_maps). rewrite N. lia.
    + exists (DOne (V1 0)), None. unfold kx_k. revert E. generalize kx_u. intros u E. rewrite (made_one u (V1 0)), E. reflexivity.
  - split; vm_compute; reflexivity.
Qed.
Print Assumptions C80_derivative_refuted.

(** x and x^2 as two samples, times the constant 3; one region with two nodes *)
Definition ky_e : kmap Q deriv := explicit_map ([fun (_ : unit) x => x; fun _ x => x * x], [tt; tt]).
Definition ky_c : kmap Q deriv := constant_map [3].
Definition ky_k : kernel Q deriv := kx_ok (mkKernel [] [] (fun _ => 0) 1) (make_kernel [ky_e; ky_c] DNone (Some (fun v => nth 0 v 0 * nth 1 v 0))).
Definition ky_r : region Q := mkRegion [0; 2] [1 # 2; 1 # 2] [(0%nat, [[1; 0]; [0; 1]])] [].
Example C80_case : made [ky_e; ky_c] ky_k /\ k_n ky_k = 2%nat /\ region_ok ky_r /\
  (exists L, eval_bilinear ky_k 0 0 2 2 [ky_r; ky_r] = Ok L /\ map (map (map Qred)) L = [[[0; 0]; [0; 0]]; [[0; 0]; [6; 12]]]) /\
  (exists l, eval_linear ky_k 0 2 [ky_r] = Ok l /\ map (map Qred) l = [[0; 0]; [3; 6]]) /\
  (exists c, eval_constant ky_k [ky_r] = Ok c /\ map Qred c = [3; 6]) /\
  sample_size [ky_e; constant_map [1; 2; 3]] = Err AssertionError.
Proof.
  split; [split|].
  - constructor; [apply (proj1 (proj2 C80_maps)); discriminate|]. constructor; [apply (proj2 (proj2 C80_maps)); discriminate|constructor].
  - exists DNone, (Some (fun v => nth 0 v 0 * nth 1 v 0)). reflexivity.
  - split; [reflexivity|]. split; [repeat constructor|]. split; [eexists; split; [reflexivity|vm_compute; reflexivity]|]. split; [eexists; split; [reflexivity|vm_compute; reflexivity]|].
    split; [eexists; split; [reflexivity|vm_compute; reflexivity]|]. reflexivity.
Qed.
