(** * Polynomials in two variables: arithmetic of the coefficients, derivatives *)
From Coq Require Import List Arith Bool Lia QArith Qabs Qminmax Lqa.
From Verif Require Import Tree Geom SpecGeom Fem SpecFem ShapeFacts.
Import ListNotations.
Open Scope Q_scope.

Fixpoint padd (a b : list Q) : list Q := match a, b with [], _ => b | _, [] => a | x :: a', y :: b' => (x + y) :: padd a' b' end.
Lemma padd_ok x : forall a b, poly (padd a b) x == poly a x + poly b x.
Proof. induction a as [|u a IH]; intros [|v b]; cbn; try ring. rewrite IH. ring. Qed.
Lemma padd_len n : forall a b, (length a <= n)%nat -> (length b <= n)%nat -> (length (padd a b) <= n)%nat.
Proof. revert n. induction n as [|n IH]; intros [|u a] [|v b] A B; cbn in *; try lia. apply le_n_S, IH; lia. Qed.
Definition pscale (k : Q) (a : list Q) : list Q := map (Qmult k) a.
Lemma pscale_ok k a x : poly (pscale k a) x == k * poly a x.
Proof. induction a as [|u a IH]; cbn; [ring|]. fold (pscale k a). rewrite IH. ring. Qed.
Lemma pscale_len k a : length (pscale k a) = length a.
Proof. apply map_length. Qed.
(** derivative *)
Fixpoint pd (a : list Q) : list Q := match a with [] => [] | _ :: r => padd r (0 :: pd r) end.

(** two variables *)
Fixpoint padd2 (a b : list (list Q)) : list (list Q) := match a, b with [], _ => b | _, [] => a | x :: a', y :: b' => padd x y :: padd2 a' b' end.
Lemma poly2_nil z : poly2 [] z = 0. Proof. reflexivity. Qed.
Lemma poly2_cons r c z : poly2 (r :: c) z = poly r (snd z) + fst z * poly2 c z.
Proof. reflexivity. Qed.
Lemma padd2_ok z : forall a b, poly2 (padd2 a b) z == poly2 a z + poly2 b z.
Proof.
  induction a as [|u a IH]; intros [|v b]; cbn [padd2]; rewrite ?poly2_nil; try ring. rewrite !poly2_cons, IH, padd_ok. ring.
Qed.
Lemma padd2_len n : forall a b, (length a <= n)%nat -> (length b <= n)%nat -> (length (padd2 a b) <= n)%nat.
Proof. revert n. induction n as [|n IH]; intros [|u a] [|v b] A B; cbn in *; try lia. apply le_n_S, IH; lia. Qed.
Lemma padd2_rows n : forall a b, Forall (fun r => (length r <= n)%nat) a -> Forall (fun r => (length r <= n)%nat) b -> Forall (fun r => (length r <= n)%nat) (padd2 a b).
Proof.
  induction a as [|u a IH]; intros [|v b] A B; cbn; try assumption. inversion A; inversion B; subst. constructor; [apply padd_len; assumption|apply IH; assumption].
Qed.
Definition pscale2 (k : Q) (a : list (list Q)) := map (pscale k) a.
Lemma pscale2_ok k a z : poly2 (pscale2 k a) z == k * poly2 a z.
Proof. induction a as [|u a IH]; cbn [pscale2 map]; rewrite ?poly2_nil; [ring|]. fold (pscale2 k a). rewrite !poly2_cons, IH, pscale_ok. ring. Qed.
Definition shy (a : list (list Q)) := map (cons 0) a.
Lemma shy_ok a z : poly2 (shy a) z == snd z * poly2 a z.
Proof. induction a as [|u a IH]; cbn [shy map]; rewrite ?poly2_nil; [ring|]. fold (shy a). rewrite !poly2_cons, IH. cbn [poly]. ring. Qed.
Lemma shx_ok a z : poly2 ([] :: a) z == fst z * poly2 a z.
Proof. rewrite poly2_cons. cbn [poly]. ring. Qed.

(** functions that are polynomials with fewer than [a] powers of x and [b] of y *)
Definition tens (a b : nat) (g : pt -> Q) : Prop :=
  exists c, (length c <= a)%nat /\ Forall (fun r => (length r <= b)%nat) c /\ forall z, g z == poly2 c z.
Lemma tens_ext a b g h : (forall z, h z == g z) -> tens a b g -> tens a b h.
Proof. intros E [c [A [B C]]]. exists c. split; [exact A|]. split; [exact B|]. intros z. rewrite E. apply C. Qed.
Lemma tens_mono a b a' b' g : (a <= a')%nat -> (b <= b')%nat -> tens a b g -> tens a' b' g.
Proof. intros A B [c [La [Lb C]]]. exists c. split; [lia|]. split; [|exact C]. eapply Forall_impl; [|exact Lb]. cbn. intros; lia. Qed.
Lemma tens_zero a b : tens a b (fun _ => 0).
Proof. exists []. split; [cbn; lia|]. split; [constructor|]. intros z. reflexivity. Qed.
Lemma tens_const a b k : (0 < a)%nat -> (0 < b)%nat -> tens a b (fun _ => k).
Proof. intros A B. exists [[k]]. split; [cbn; lia|]. split; [repeat constructor; cbn; lia|]. intros z. cbn. ring. Qed.
Lemma tens_add a b g h : tens a b g -> tens a b h -> tens a b (fun z => g z + h z).
Proof.
  intros [c [A [B C]]] [d [A' [B' C']]]. exists (padd2 c d). split; [apply padd2_len; assumption|]. split; [apply padd2_rows; assumption|].
  intros z. rewrite padd2_ok, C, C'. reflexivity.
Qed.
Lemma tens_scale a b k g : tens a b g -> tens a b (fun z => k * g z).
Proof.
  intros [c [A [B C]]]. exists (pscale2 k c). split; [unfold pscale2; rewrite map_length; exact A|]. split; [|intros z; rewrite pscale2_ok, C; reflexivity].
  unfold pscale2. apply Forall_forall. intros r I. apply in_map_iff in I. destruct I as [u [<- I]]. rewrite pscale_len. rewrite Forall_forall in B. apply B, I.
Qed.
Lemma tens_x a b g : tens a b g -> tens (S a) b (fun z => fst z * g z).
Proof.
  intros [c [A [B C]]]. exists ([] :: c). split; [cbn; lia|]. split; [constructor; [cbn; lia|exact B]|]. intros z. rewrite shx_ok, C. reflexivity.
Qed.
Lemma tens_y a b g : tens a b g -> tens a (S b) (fun z => snd z * g z).
Proof.
  intros [c [A [B C]]]. exists (shy c). split; [unfold shy; rewrite map_length; exact A|]. split; [|intros z; rewrite shy_ok, C; reflexivity].
  unfold shy. apply Forall_forall. intros r I. apply in_map_iff in I. destruct I as [u [<- I]]. cbn. rewrite Forall_forall in B. apply le_n_S, B, I.
Qed.
(** products with a function that is linear in each variable *)
Definition bilin (k0 k1 k2 k3 : Q) (z : pt) : Q := k0 + k1 * fst z + k2 * snd z + k3 * fst z * snd z.
Lemma tens_bilin a b k0 k1 k2 k3 g : tens a b g -> tens (S a) (S b) (fun z => bilin k0 k1 k2 k3 z * g z).
Proof.
  intros T. eapply tens_ext; [|apply tens_add; [apply tens_add; [apply tens_add|]|]].
  - instantiate (1 := fun z => k3 * (fst z * (snd z * g z))). instantiate (1 := fun z => k2 * (snd z * g z)). instantiate (1 := fun z => k1 * (fst z * g z)). instantiate (1 := fun z => k0 * g z).
    intros z. unfold bilin. ring.
  - apply tens_scale. eapply tens_mono; [| |exact T]; lia.
  - apply tens_scale. eapply tens_mono; [| |apply tens_x; exact T]; lia.
  - apply tens_scale. eapply tens_mono; [| |apply tens_y; exact T]; lia.
  - apply tens_scale. apply tens_x, tens_y. exact T.
Qed.
Lemma tens_linx a b k0 k1 g : tens a b g -> tens (S a) b (fun z => (k0 + k1 * fst z) * g z).
Proof.
  intros T. eapply tens_ext; [|apply tens_add].
  - instantiate (1 := fun z => k1 * (fst z * g z)). instantiate (1 := fun z => k0 * g z). intros z. cbn. ring.
  - apply tens_scale. eapply tens_mono; [| |exact T]; lia.
  - apply tens_scale, tens_x. exact T.
Qed.
Lemma tens_liny a b k0 k2 g : tens a b g -> tens a (S b) (fun z => (k0 + k2 * snd z) * g z).
Proof.
  intros T. eapply tens_ext; [|apply tens_add].
  - instantiate (1 := fun z => k2 * (snd z * g z)). instantiate (1 := fun z => k0 * g z). intros z. cbn. ring.
  - apply tens_scale. eapply tens_mono; [| |exact T]; lia.
  - apply tens_scale, tens_y. exact T.
Qed.

(** ** A polynomial after a map *)
Section Compose.
Context (X Y : pt -> Q) (k0 k1 k2 k3 l0 l1 l2 l3 : Q).
Context (EX : forall z, X z == bilin k0 k1 k2 k3 z) (EY : forall z, Y z == bilin l0 l1 l2 l3 z).
Lemma comp_y N : forall r, (length r <= N)%nat -> tens N N (fun z => poly r (Y z)).
Proof.
  induction N as [|N IH]; intros [|u r] L; cbn in L; try lia; try (eapply tens_ext; [|apply tens_zero]; intros z; reflexivity).
  eapply tens_ext; [|apply tens_add; [apply (tens_const _ _ u); lia|apply (tens_bilin N N l0 l1 l2 l3), (IH r); lia]].
  intros z. cbn [poly]. rewrite <- EY. reflexivity.
Qed.
Lemma comp_zero c : Forall (fun r : list Q => r = []) c -> forall z, poly2 c z == 0.
Proof. induction 1 as [|r c -> F IH]; intros z; [reflexivity|]. rewrite poly2_cons, IH. cbn [poly]. ring. Qed.
Lemma comp_total : forall c N, (forall i r, nth_error c i = Some r -> r = [] \/ (length r + i <= N)%nat) -> tens N N (fun z => poly2 c (X z, Y z)).
Proof.
  induction c as [|r c IH]; intros N H; [apply tens_zero|]. destruct N as [|N].
  - eapply tens_ext; [|apply tens_zero]. intros z. apply comp_zero. apply Forall_forall. intros u I. apply In_nth_error in I. destruct I as [i E].
    destruct (H i u E) as [->|L]; [reflexivity|]. destruct u; [reflexivity|cbn in L; lia].
  - eapply tens_ext; [|apply tens_add; [apply (comp_y (S N) r)|apply (tens_bilin N N k0 k1 k2 k3), (IH N)]].
    + intros z. rewrite poly2_cons. cbn [fst snd]. apply Qplus_comp; [reflexivity|]. apply Qmult_comp; [apply EX|reflexivity].
    + destruct (H 0%nat r eq_refl) as [->|L]; [cbn; lia|lia].
    + intros i u E. destruct (H (S i) u E) as [->|L]; [auto|right; lia].
Qed.
End Compose.
Section ComposeAligned.
Context (X Y : pt -> Q) (k0 k1 l0 l2 : Q).
Context (EX : forall z, X z == k0 + k1 * fst z) (EY : forall z, Y z == l0 + l2 * snd z).
Lemma comp_y1 N : forall r, (length r <= N)%nat -> tens 1 N (fun z => poly r (Y z)).
Proof.
  induction N as [|N IH]; intros [|u r] L; cbn in L; try lia; try (eapply tens_ext; [|apply tens_zero]; intros z; reflexivity).
  eapply tens_ext; [|apply tens_add; [apply (tens_const _ _ u); lia|apply (tens_liny 1 N l0 l2), (IH r); lia]].
  intros z. cbn [poly]. rewrite <- EY. reflexivity.
Qed.
Lemma comp_each M : forall c N, (length c <= N)%nat -> Forall (fun r => (length r <= M)%nat) c -> tens N M (fun z => poly2 c (X z, Y z)).
Proof.
  induction c as [|r c IH]; intros N H F; [apply tens_zero|]. destruct N as [|N]; [cbn in H; lia|]. inversion F as [|? ? F1 F2]; subst.
  eapply tens_ext; [|apply tens_add; [eapply tens_mono; [| |apply (comp_y1 M r F1)]; lia|apply (tens_linx N M k0 k1), (IH N); [cbn in H; lia|exact F2]]].
  intros z. rewrite poly2_cons. cbn [fst snd]. apply Qplus_comp; [reflexivity|]. apply Qmult_comp; [apply EX|reflexivity].
Qed.
End ComposeAligned.

(** ** Derivatives *)
Lemma pd_rem a x : exists M, 0 <= M /\ forall h, Qabs h <= 1 -> Qabs (poly a (x + h) - poly a x - poly (pd a) x * h) <= M * (Qabs h * Qabs h).
Proof.
  induction a as [|u a [M [M0 IH]]]; [exists 0; split; [lra|]; intros h _; cbn; setoid_replace (0 - 0 - 0 * h) with 0 by ring; cbn; nra|].
  exists ((Qabs x + 1) * M + Qabs (poly (pd a) x)). pose proof (Qabs_nonneg x) as Px. pose proof (Qabs_nonneg (poly (pd a) x)) as Pd. split; [nra|].
  intros h Hh. specialize (IH h Hh). cbn [poly pd]. 
  setoid_replace (u + (x + h) * poly a (x + h) - (u + x * poly a x) - poly (padd a (0 :: pd a)) x * h)
    with ((x + h) * (poly a (x + h) - poly a x - poly (pd a) x * h) + poly (pd a) x * (h * h)) by (rewrite padd_ok; cbn [poly]; ring).
  eapply Qle_trans; [apply Qabs_triangle|]. rewrite !Qabs_Qmult. pose proof (Qabs_triangle x h) as T. pose proof (Qabs_nonneg h) as Ph.
  pose proof (Qabs_nonneg (x + h)) as Pxh. pose proof (Qabs_nonneg (poly a (x + h) - poly a x - poly (pd a) x * h)) as Pr.
  set (R := Qabs (poly a (x + h) - poly a x - poly (pd a) x * h)) in *. set (s := Qabs h * Qabs h) in *. assert (0 <= s) by (unfold s; nra).
  assert (Qabs (x + h) * R <= (Qabs x + 1) * (M * s)); [|lra].
  apply Qle_trans with ((Qabs x + 1) * R); [apply Qmult_le_compat_r; lra|]. rewrite (Qmult_comm (Qabs x + 1) R), (Qmult_comm (Qabs x + 1) (M * s)). apply Qmult_le_compat_r; lra.
Qed.
Definition pdx (c : list (list Q)) : list (list Q) := (fix go c := match c with [] => [] | _ :: r => padd2 r ([] :: go r) end) c.
Definition pdy (c : list (list Q)) : list (list Q) := map pd c.
Definition pdi (i : nat) (c : list (list Q)) : list (list Q) := if (i =? 0)%nat then pdx c else pdy c.
Lemma pdx_cons r c z : poly2 (pdx (r :: c)) z == poly2 c z + fst z * poly2 (pdx c) z.
Proof. unfold pdx at 1. fold pdx. change ((fix go (c0 : list (list Q)) : list (list Q) := match c0 with [] => [] | _ :: r0 => padd2 r0 ([] :: go r0) end) c) with (pdx c). rewrite padd2_ok, shx_ok. reflexivity. Qed.
Lemma pdy_cons r c z : poly2 (pdy (r :: c)) z == poly (pd r) (snd z) + fst z * poly2 (pdy c) z.
Proof. reflexivity. Qed.
(** the remainder of second order *)
Lemma pd2_rem c x y : exists M, 0 <= M /\ forall h k, Qabs h <= 1 -> Qabs k <= 1 ->
  Qabs (poly2 c (x + h, y + k) - poly2 c (x, y) - poly2 (pdx c) (x, y) * h - poly2 (pdy c) (x, y) * k) <= M * ((Qabs h + Qabs k) * (Qabs h + Qabs k)).
Proof.
  induction c as [|r c [M [M0 IH]]].
  { exists 0. split; [lra|]. intros h k _ _. cbn. setoid_replace (0 - 0 - 0 * h - 0 * k) with 0 by ring. cbn. nra. }
  destruct (pd_rem r y) as [N [N0 HN]]. set (gx := poly2 (pdx c) (x, y)) in *. set (gy := poly2 (pdy c) (x, y)) in *.
  exists (N + ((Qabs x + 1) * M + (Qabs gx + Qabs gy))). pose proof (Qabs_nonneg x) as Px. pose proof (Qabs_nonneg gx) as Pgx. pose proof (Qabs_nonneg gy) as Pgy. split; [nra|].
  intros h k Hh Hk. specialize (IH h k Hh Hk). specialize (HN k Hk). rewrite !poly2_cons, pdx_cons, pdy_cons. cbn [fst snd]. fold gx gy.
  set (D := poly2 c (x + h, y + k) - poly2 c (x, y) - gx * h - gy * k) in *.
  set (E := poly r (y + k) - poly r y - poly (pd r) y * k) in *.
  setoid_replace (poly r (y + k) + (x + h) * poly2 c (x + h, y + k) - (poly r y + x * poly2 c (x, y)) - (poly2 c (x, y) + x * gx) * h - (poly (pd r) y + x * gy) * k)
    with (E + ((x + h) * D + h * (gx * h + gy * k))) by (unfold E, D; ring).
  pose proof (Qabs_nonneg h) as Ph. pose proof (Qabs_nonneg k) as Pk. set (a := Qabs h) in *. set (b := Qabs k) in *. set (s := (a + b) * (a + b)) in *.
  assert (S0 : 0 <= s) by (unfold s; nra).
  assert (T1 : Qabs E <= N * s). { eapply Qle_trans; [exact HN|]. rewrite (Qmult_comm N (b * b)), (Qmult_comm N s). apply Qmult_le_compat_r; [unfold s; nra|exact N0]. }
  assert (T2 : Qabs ((x + h) * D) <= (Qabs x + 1) * M * s).
  { rewrite Qabs_Qmult. pose proof (Qabs_triangle x h) as T. fold a in T. pose proof (Qabs_nonneg D) as PD. apply Qle_trans with ((Qabs x + 1) * Qabs D); [apply Qmult_le_compat_r; lra|].
    rewrite <- Qmult_assoc, (Qmult_comm (Qabs x + 1) (Qabs D)), (Qmult_comm (Qabs x + 1) (M * s)). apply Qmult_le_compat_r; [exact IH|lra]. }
  assert (T3 : Qabs (h * (gx * h + gy * k)) <= (Qabs gx + Qabs gy) * s).
  { rewrite Qabs_Qmult. pose proof (Qabs_triangle (gx * h) (gy * k)) as T. rewrite !Qabs_Qmult in T. fold a b in T |- *.
    apply Qle_trans with (a * (Qabs gx * a + Qabs gy * b)).
    - rewrite !(Qmult_comm a). apply Qmult_le_compat_r; [exact T|exact Ph].
    - unfold s. clear - Pgx Pgy Ph Pk. set (p := Qabs gx) in *. set (q := Qabs gy) in *.
      assert (0 <= p * a * b) by (apply Qmult_le_0_compat; [apply Qmult_le_0_compat|]; assumption). assert (0 <= p * (b * b)) by (apply Qmult_le_0_compat; [|apply Qmult_le_0_compat]; assumption).
      assert (0 <= q * a * b) by (apply Qmult_le_0_compat; [apply Qmult_le_0_compat|]; assumption). assert (0 <= q * (b * b)) by (apply Qmult_le_0_compat; [|apply Qmult_le_0_compat]; assumption).
      assert (0 <= q * (a * a)) by (apply Qmult_le_0_compat; [|apply Qmult_le_0_compat]; assumption). lra. }
  eapply Qle_trans; [apply Qabs_triangle|]. pose proof (Qabs_triangle ((x + h) * D) (h * (gx * h + gy * k))) as T4. lra.
Qed.
Lemma poly2_proper2 c z z' : peq z z' -> poly2 c z == poly2 c z'.
Proof. apply poly2_proper. Qed.
Lemma pd2_partial c z : partial_at (poly2 c) z (poly2 (pdx c) z) (poly2 (pdy c) z).
Proof.
  destruct z as [x y]. destruct (pd2_rem c x y) as [M [M0 H]]. split; cbn [fst snd].
  - apply (@deriv_of_rem (fun x' => poly2 c (x', y)) x _ M M0). intros h Hh. specialize (H h 0 Hh ltac:(cbn; lra)).
    rewrite (poly2_proper c (x + h, y + 0) (x + h, y)) in H by (split; cbn; ring).
    setoid_replace (poly2 c (x + h, y) - poly2 c (x, y) - poly2 (pdx c) (x, y) * h) with (poly2 c (x + h, y) - poly2 c (x, y) - poly2 (pdx c) (x, y) * h - poly2 (pdy c) (x, y) * 0) by ring.
    eapply Qle_trans; [exact H|]. change (Qabs 0) with 0. apply Qle_lteq. right. ring.
  - apply (@deriv_of_rem (fun y' => poly2 c (x, y')) y _ M M0). intros h Hh. specialize (H 0 h ltac:(cbn; lra) Hh).
    rewrite (poly2_proper c (x + 0, y + h) (x, y + h)) in H by (split; cbn; ring).
    setoid_replace (poly2 c (x, y + h) - poly2 c (x, y) - poly2 (pdy c) (x, y) * h) with (poly2 c (x, y + h) - poly2 c (x, y) - poly2 (pdx c) (x, y) * 0 - poly2 (pdy c) (x, y) * h) by ring.
    eapply Qle_trans; [exact H|]. change (Qabs 0) with 0. apply Qle_lteq. right. ring.
Qed.
(** ** Uniqueness of derivatives, the gradient on a cell *)
Lemma deriv_unique (f g : Q -> Q) x a b : (forall y, f y == g y) -> deriv_at f x a -> deriv_at g x b -> a == b.
Proof.
  intros E A B. destruct (Qeq_dec a b) as [H|H]; [exact H|exfalso].
  assert (P : 0 < Qabs (a - b)). { destruct (Qlt_le_dec 0 (Qabs (a - b))) as [L|L]; [exact L|]. exfalso. apply H. pose proof (Qle_Qabs (a - b)). pose proof (Qle_Qabs (- (a - b))) as N. rewrite Qabs_opp in N. lra. }
  set (e := Qabs (a - b) / 4). assert (Pe : 0 < e) by (unfold e; apply Qlt_shift_div_l; lra). assert (Ee : Qabs (a - b) == 4 * e) by (unfold e; field).
  destruct (A e Pe) as [d1 [D1 H1]]. destruct (B e Pe) as [d2 [D2 H2]]. set (h := Qmin d1 d2). assert (Ph : 0 < h) by (apply Q.min_glb_lt; assumption).
  assert (Ah : Qabs h == h) by (apply Qabs_pos; lra). assert (L1 : Qabs h <= d1) by (rewrite Ah; apply Q.le_min_l). assert (L2 : Qabs h <= d2) by (rewrite Ah; apply Q.le_min_r).
  specialize (H1 h L1). specialize (H2 h L2). pose proof (Qabs_triangle (g (x + h) - g x - b * h) (- (f (x + h) - f x - a * h))) as T. rewrite Qabs_opp in T.
  assert (Q1 : g (x + h) - g x - b * h + - (f (x + h) - f x - a * h) == (a - b) * h) by (rewrite !E; ring). rewrite Q1, Qabs_Qmult, Ee, Ah in T. rewrite Ah in H1, H2. nra.
Qed.
Lemma deriv_ext (f g : Q -> Q) x d : (forall y, f y == g y) -> deriv_at f x d -> deriv_at g x d.
Proof. intros E A eps He. destruct (A eps He) as [delta [D H]]. exists delta. split; [exact D|]. intros h Hh. rewrite <- !E. apply H, Hh. Qed.
Definition qb (q : quad) (i : nat) : Q * Q * Q * Q :=
  let '(a, b, c, d) := q in let g := if (i =? 0)%nat then @fst Q Q else @snd Q Q in (g a, g b - g a, g d - g a, g a - g b + g c - g d).
Lemma qmap_bilin q : exists k0 k1 k2 k3 l0 l1 l2 l3, forall z, fst (qmap q (fst z) (snd z)) == bilin k0 k1 k2 k3 z /\ snd (qmap q (fst z) (snd z)) == bilin l0 l1 l2 l3 z.
Proof.
  destruct q as [[[a b] c] d]. exists (fst a), (fst b - fst a), (fst d - fst a), (fst a - fst b + fst c - fst d), (snd a), (snd b - snd a), (snd d - snd a), (snd a - snd b + snd c - snd d).
  intros z. unfold qmap, bilin. cbn [fst snd]. split; ring.
Qed.
Lemma bilin_close k0 k1 k2 k3 : exists K, 0 <= K /\ forall p p' d, in_unit p -> in_unit p' -> Qabs (fst p' - fst p) <= d -> Qabs (snd p' - snd p) <= d ->
  Qabs (bilin k0 k1 k2 k3 p' - bilin k0 k1 k2 k3 p) <= K * d.
Proof.
  exists (Qabs k1 + Qabs k2 + 2 * Qabs k3). pose proof (Qabs_nonneg k1) as P1. pose proof (Qabs_nonneg k2) as P2. pose proof (Qabs_nonneg k3) as P3. split; [lra|].
  intros [s t] [s' t'] d [[U1 U2] [U3 U4]] [[V1 V2] [V3 V4]] A B. unfold bilin. cbn [fst snd] in *.
  setoid_replace (k0 + k1 * s' + k2 * t' + k3 * s' * t' - (k0 + k1 * s + k2 * t + k3 * s * t)) with (k1 * (s' - s) + (k2 * (t' - t) + k3 * (s' * (t' - t) + t * (s' - s)))) by ring.
  assert (C : forall k u, Qabs u <= d -> Qabs (k * u) <= Qabs k * d). { intros k u L. rewrite Qabs_Qmult, !(Qmult_comm (Qabs k)). apply Qmult_le_compat_r; [exact L|apply Qabs_nonneg]. }
  pose proof (Qabs_triangle (k1 * (s' - s)) (k2 * (t' - t) + k3 * (s' * (t' - t) + t * (s' - s)))) as T1.
  pose proof (Qabs_triangle (k2 * (t' - t)) (k3 * (s' * (t' - t) + t * (s' - s)))) as T2.
  assert (S0 : Qabs (s' * (t' - t) + t * (s' - s)) <= 2 * d).
  { eapply Qle_trans; [apply Qabs_triangle|]. assert (D : forall w u, 0 <= w -> w <= 1 -> Qabs u <= d -> Qabs (w * u) <= d); [|pose proof (D s' (t' - t) V1 V2 B); pose proof (D t (s' - s) U3 U4 A); lra].
    intros w u W0 W1 L. rewrite Qabs_Qmult, (Qabs_pos w W0). pose proof (Qabs_nonneg u). nra. }
  assert (S1 : Qabs (k3 * (s' * (t' - t) + t * (s' - s))) <= Qabs k3 * (2 * d)). { rewrite Qabs_Qmult, !(Qmult_comm (Qabs k3)). apply Qmult_le_compat_r; [exact S0|exact P3]. }
  pose proof (C k1 _ A). pose proof (C k2 _ B). lra.
Qed.
Lemma qmap_close q : exists K, 0 <= K /\ forall p p' d, in_unit p -> in_unit p' -> Qabs (fst p' - fst p) <= d -> Qabs (snd p' - snd p) <= d ->
  Qabs (fst (qmap q (fst p') (snd p')) - fst (qmap q (fst p) (snd p))) <= K * d /\ Qabs (snd (qmap q (fst p') (snd p')) - snd (qmap q (fst p) (snd p))) <= K * d.
Proof.
  destruct (qmap_bilin q) as [k0 [k1 [k2 [k3 [l0 [l1 [l2 [l3 E]]]]]]]]. destruct (bilin_close k0 k1 k2 k3) as [K [K0 HK]]. destruct (bilin_close l0 l1 l2 l3) as [L [L0 HL]].
  exists (K + L). split; [lra|]. intros p p' d U U' A B. destruct (E p) as [-> ->]. destruct (E p') as [-> ->].
  assert (D : 0 <= d) by (pose proof (Qabs_nonneg (fst p' - fst p)); lra). pose proof (HK p p' d U U' A B). pose proof (HL p p' d U U' A B).
  assert (0 <= K * d) by (apply Qmult_le_0_compat; assumption). assert (0 <= L * d) by (apply Qmult_le_0_compat; assumption). split; lra.
Qed.
Lemma poly_gradient q c p (G0 G1 : Q) (f : pt -> Q) : in_unit p -> (forall z, f z == poly2 c z) ->
  G0 == poly2 (pdx c) (qmap q (fst p) (snd p)) -> G1 == poly2 (pdy c) (qmap q (fst p) (snd p)) ->
  cell_gradient q (fun y => Ok (f (qmap q (fst y) (snd y)))) p G0 G1.
Proof.
  intros U Ef E0 E1. eexists. split; [reflexivity|]. intros eps He. destruct (qmap_close q) as [K [K0 HK]].
  destruct (pd2_rem c (fst (qmap q (fst p) (snd p))) (snd (qmap q (fst p) (snd p)))) as [M [M0 HM]].
  assert (MK : 0 <= M * K) by (apply Qmult_le_0_compat; assumption).
  set (d1 := 1 / (K + 1)). set (d2 := eps / (2 * (M * K) + 1)).
  assert (P1 : 0 < d1) by (unfold d1; apply Qlt_shift_div_l; lra). assert (P2 : 0 < d2) by (unfold d2; apply Qlt_shift_div_l; lra).
  assert (Q1 : (K + 1) * d1 == 1) by (unfold d1; field; lra). assert (Q2 : (2 * (M * K) + 1) * d2 == eps) by (unfold d2; field; lra).
  exists (Qmin d1 d2). split; [apply Q.min_glb_lt; assumption|]. intros p' U' A B. eexists. split; [reflexivity|]. cbn zeta.
  set (d := Qmin d1 d2) in *. assert (L1 : d <= d1) by apply Q.le_min_l. assert (L2 : d <= d2) by apply Q.le_min_r. assert (Pd : 0 < d) by (apply Q.min_glb_lt; assumption).
  destruct (HK p p' d U U' A B) as [X Y].
  set (z := qmap q (fst p) (snd p)) in *. set (z' := qmap q (fst p') (snd p')) in *. set (h := fst z' - fst z) in *. set (k := snd z' - snd z) in *.
  assert (Kd : K * d <= 1) by nra.
  specialize (HM h k ltac:(lra) ltac:(lra)). rewrite !Ef.
  rewrite (poly2_proper c z' (fst z + h, snd z + k)) by (split; unfold h, k; cbn; ring). rewrite E0, E1.
  assert (PZ : forall c', poly2 c' z = poly2 c' (fst z, snd z)) by (intros c'; destruct z; reflexivity). rewrite !PZ.
  eapply Qle_trans; [exact HM|]. set (s := Qabs h + Qabs k) in *.
  assert (S0 : 0 <= s) by (unfold s; pose proof (Qabs_nonneg h); pose proof (Qabs_nonneg k); lra). assert (S1 : s <= 2 * (K * d)) by (unfold s; lra).
  rewrite Qmult_assoc. apply Qmult_le_compat_r; [|exact S0].
  apply Qle_trans with (M * (2 * (K * d))); [rewrite !(Qmult_comm M); apply Qmult_le_compat_r; assumption|].
  setoid_replace (M * (2 * (K * d))) with (2 * (M * K) * d) by ring. rewrite <- Q2. nra.
Qed.
