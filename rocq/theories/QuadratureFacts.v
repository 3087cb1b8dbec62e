(** * Integrals and polynomials *)
From Coq Require Import List Reals Lra Lia Arith.
From Verif Require Import Tree Quadrature SpecQuadrature.
Import ListNotations.
Open Scope R_scope.

Lemma rsum_app : forall a b, rsum (a ++ b) = rsum a + rsum b.
Proof. induction a; intros b; [change (rsum b = 0 + rsum b); ring|]. change (a + rsum (a0 ++ b) = a + rsum a0 + rsum b). rewrite IHa. ring. Qed.
Lemma rsum_cons : forall a l, rsum (a :: l) = a + rsum l.
Proof. reflexivity. Qed.
Lemma rsum_nil : rsum [] = 0.
Proof. reflexivity. Qed.
Lemma rsum_scal : forall X (f : X -> R) a l, rsum (map (fun x => a * f x) l) = a * rsum (map f l).
Proof. induction l; cbn [map]; [rewrite ?rsum_nil; ring|]. rewrite !rsum_cons, IHl. ring. Qed.
Lemma rsum_plus : forall X (f g : X -> R) l, rsum (map (fun x => f x + g x) l) = rsum (map f l) + rsum (map g l).
Proof. induction l; cbn [map]; [rewrite ?rsum_nil; ring|]. rewrite !rsum_cons, IHl. ring. Qed.
Lemma rsum_ext : forall X (f g : X -> R) l, (forall x, In x l -> f x = g x) -> rsum (map f l) = rsum (map g l).
Proof. induction l; intros E; [reflexivity|]. cbn [map]. rewrite !rsum_cons, IHl, E; [reflexivity|left; reflexivity|]. intros; apply E; right; assumption. Qed.
Lemma rsum_zero : forall X (l : list X), rsum (map (fun _ => 0) l) = 0.
Proof. induction l; [reflexivity|]. cbn [map]. rewrite rsum_cons, IHl. ring. Qed.
Lemma rsum_swap : forall X Y (f : X -> Y -> R) l m, rsum (map (fun x => rsum (map (f x) m)) l) = rsum (map (fun y => rsum (map (fun x => f x y) l)) m).
Proof.
  induction l as [|x l IH]; intros m; cbn [map].
  - rewrite rsum_zero. reflexivity.
  - rewrite rsum_cons, IH, <- rsum_plus. apply rsum_ext. intros y _. rewrite rsum_cons. reflexivity.
Qed.
Lemma rsum_concat : forall X Y (f : Y -> R) (g : X -> list Y) l, rsum (map f (concat (map g l))) = rsum (map (fun x => rsum (map f (g x))) l).
Proof. induction l; [reflexivity|]. cbn [map concat]. rewrite map_app, rsum_app, rsum_cons, IHl. reflexivity. Qed.

(** ** Antiderivatives *)
Lemma antiderivative_const : forall P f a b, antiderivative P f -> (forall x, f x = 0) -> P a = P b.
Proof.
  assert (W : forall P f a b, antiderivative P f -> (forall x, f x = 0) -> a < b -> P a = P b).
  { intros P f a b A Z L. destruct (MVT_cor2 P f a b L (fun c _ => A c)) as [c [E _]]. rewrite (Z c) in E. lra. }
  intros P f a b A Z. destruct (Rtotal_order a b) as [L|[->|L]]; [apply (W P f); assumption|reflexivity|symmetry; apply (W P f); assumption].
Qed.
Lemma integral_unique : forall f g a b I J, (forall x, f x = g x) -> integral f a b I -> integral g a b J -> I = J.
Proof.
  intros f g a b I J E [P [A ->]] [Q [B ->]].
  assert (Z := antiderivative_const (fun x => P x - Q x) (fun x => f x - g x) a b
                (fun x => derivable_pt_lim_minus P Q x _ _ (A x) (B x)) (fun x => Rminus_diag_eq _ _ (E x))).
  cbn in Z. lra.
Qed.
Lemma integral_ext : forall f g a b I, (forall x, f x = g x) -> integral f a b I -> integral g a b I.
Proof. intros f g a b I E [P [A ->]]. exists P. split; [|reflexivity]. intros x. rewrite <- E. apply A. Qed.
Lemma integral2_unique : forall f g a b c d I J, (forall x y, f x y = g x y) -> integral2 f a b c d I -> integral2 g a b c d J -> I = J.
Proof.
  intros f g a b c d I J E [G [A1 A2]] [K [B1 B2]]. apply (integral_unique G K c d); try assumption.
  intros y. apply (integral_unique (fun x => f x y) (fun x => g x y) a b); auto.
Qed.
Lemma integral2_ext : forall f g a b c d I, (forall x y, f x y = g x y) -> integral2 f a b c d I -> integral2 g a b c d I.
Proof. intros f g a b c d I E [G [A1 A2]]. exists G. split; [|exact A2]. intros y. apply (integral_ext (fun x => f x y)); [intros; apply E|apply A1]. Qed.
Lemma antiderivative_power : forall k, antiderivative (fun x => x ^ S k / INR (S k)) (fun x => x ^ k).
Proof.
  intros k x. assert (N : INR (S k) <> 0) by (apply not_0_INR; lia).
  assert (D := derivable_pt_lim_scal _ (/ INR (S k)) x _ (derivable_pt_lim_pow x (S k))).
  cbn [pred] in D. replace (/ INR (S k) * (INR (S k) * x ^ k)) with (x ^ k) in D by (field; exact N).
  intros eps He. destruct (D eps He) as [d Hd]. exists d. intros h H1 H2. specialize (Hd h H1 H2).
  unfold mult_real_fct in Hd. unfold Rdiv at 2 3. rewrite (Rmult_comm ((x + h) ^ S k)), (Rmult_comm (x ^ S k)). exact Hd.
Qed.
Lemma antiderivative_sum : forall X (P f : X -> R -> R) l, (forall t, In t l -> antiderivative (P t) (f t)) ->
  antiderivative (fun x => rsum (map (fun t => P t x) l)) (fun x => rsum (map (fun t => f t x) l)).
Proof.
  induction l as [|t l IH]; intros A x; cbn [map].
  - apply derivable_pt_lim_const.
  - apply (derivable_pt_lim_plus (P t) (fun x => rsum (map (fun t => P t x) l))); [apply A; left; reflexivity|].
    apply IH. intros; apply A; right; assumption.
Qed.
Lemma antiderivative_scal : forall P f a, antiderivative P f -> antiderivative (fun x => a * P x) (fun x => a * f x).
Proof. intros P f a A x. apply (derivable_pt_lim_scal P a x). apply A. Qed.
Lemma antiderivative_affine : forall P f c h, antiderivative P f -> antiderivative (fun x => P (c + h * x)) (fun x => h * f (c + h * x)).
Proof.
  intros P f c h A x. rewrite Rmult_comm.
  assert (D : derivable_pt_lim (fun x => c + h * x) x (0 + h * 1)).
  { apply (derivable_pt_lim_plus (fun _ => c) (fun x => h * x)); [apply derivable_pt_lim_const|].
    apply (derivable_pt_lim_scal id h x 1). apply derivable_pt_lim_id. }
  replace (0 + h * 1) with h in D by ring.
  exact (derivable_pt_lim_comp (fun x => c + h * x) P x h (f (c + h * x)) D (A _)).
Qed.
Lemma antiderivative_ext : forall P f g, (forall x, f x = g x) -> antiderivative P f -> antiderivative P g.
Proof. intros P f g E A x. rewrite <- E. apply A. Qed.

(** ** Polynomials *)
Lemma poly_ext : forall n f g, (forall x, f x = g x) -> poly n f -> poly n g.
Proof. intros n f g E [c [F H]]. exists c. split; [exact F|]. intros x. rewrite <- E. apply H. Qed.
Lemma poly_mono : forall n m f, (n <= m)%nat -> poly n f -> poly m f.
Proof. intros n m f L [c [F H]]. exists c. split; [|exact H]. eapply Forall_impl; [|exact F]. intros t Ht. cbn in *. lia. Qed.
Lemma poly_const : forall n a, (0 < n)%nat -> poly n (fun _ => a).
Proof. intros n a L. exists [(a, 0%nat)]. split; [repeat constructor; exact L|]. intros x. cbn [map]. rewrite rsum_cons, rsum_nil. cbn [fst snd pow]. ring. Qed.
Lemma poly_id : forall n, (1 < n)%nat -> poly n (fun x => x).
Proof. intros n L. exists [(1, 1%nat)]. split; [repeat constructor; exact L|]. intros x. cbn [map]. rewrite rsum_cons, rsum_nil. cbn [fst snd pow]. ring. Qed.
Lemma poly_plus : forall n f g, poly n f -> poly n g -> poly n (fun x => f x + g x).
Proof. intros n f g [c [F H]] [c' [F' H']]. exists (c ++ c'). split; [apply Forall_app; tauto|]. intros x. rewrite map_app, rsum_app, H, H'. reflexivity. Qed.
Lemma poly_mul : forall n m f g, poly (S n) f -> poly (S m) g -> poly (S (n + m)) (fun x => f x * g x).
Proof.
  intros n m f g [c [F H]] [c' [F' H']].
  exists (concat (map (fun t => map (fun t' => (fst t * fst t', (snd t + snd t')%nat)) c') c)). split.
  - apply Forall_forall. intros t I. apply in_concat in I. destruct I as [l [Il I]]. apply in_map_iff in Il. destruct Il as [u [<- Iu]].
    apply in_map_iff in I. destruct I as [u' [<- Iu']]. rewrite Forall_forall in F, F'. specialize (F u Iu). specialize (F' u' Iu'). cbn in *. lia.
  - intros x. rewrite rsum_concat, H, H'. rewrite Rmult_comm, <- rsum_scal. apply rsum_ext. intros t _. rewrite map_map, Rmult_comm, <- rsum_scal.
    apply rsum_ext. intros t' _. cbn [fst snd]. rewrite pow_add. ring.
Qed.
Lemma poly_scal : forall n a f, poly n f -> poly n (fun x => a * f x).
Proof.
  intros n a f [c [F H]]. exists (map (fun t => (a * fst t, snd t)) c). split.
  - apply Forall_map. exact F.
  - intros x. rewrite map_map, H, <- rsum_scal. apply rsum_ext. intros t _. cbn [fst snd]. ring.
Qed.
Lemma poly_sum : forall X n (f : X -> R -> R) l, (forall t, In t l -> poly n (f t)) -> poly n (fun x => rsum (map (fun t => f t x) l)).
Proof.
  induction l as [|t l IH]; intros A.
  - exists []. split; [constructor|]. reflexivity.
  - cbn [map]. apply (poly_plus n (f t) (fun x => rsum (map (fun t => f t x) l))); [apply A; left; reflexivity|apply IH; intros; apply A; right; assumption].
Qed.
Lemma poly_pow_affine : forall k c h, poly (S k) (fun x => (c + h * x) ^ k).
Proof.
  induction k; intros c h.
  - apply (poly_const 1 1). lia.
  - cbn [pow]. apply (poly_mul 1 k (fun x => c + h * x) (fun x => (c + h * x) ^ k)); [|apply IHk].
    apply poly_plus; [apply poly_const; lia|]. apply poly_scal. apply poly_id. lia.
Qed.
Lemma poly_affine : forall n f c h, poly n f -> poly n (fun x => f (c + h * x)).
Proof.
  intros n f c h [l [F H]]. apply (poly_ext n (fun x => rsum (map (fun t => fst t * (c + h * x) ^ snd t) l))); [intros; symmetry; apply H|].
  apply (poly_sum _ n (fun t x => fst t * (c + h * x) ^ snd t)). intros t I. apply poly_scal. apply (poly_mono (S (snd t))); [|apply poly_pow_affine].
  rewrite Forall_forall in F. apply F in I. lia.
Qed.
Lemma poly_integrable : forall n f, poly n f -> exists P, antiderivative P f.
Proof.
  intros n f [c [F H]]. exists (fun x => rsum (map (fun t => fst t * (x ^ S (snd t) / INR (S (snd t)))) c)).
  apply (antiderivative_ext _ (fun x => rsum (map (fun t => fst t * x ^ snd t) c))); [intros; symmetry; apply H|].
  apply (antiderivative_sum _ (fun t x => fst t * (x ^ S (snd t) / INR (S (snd t)))) (fun t x => fst t * x ^ snd t)).
  intros t _. apply antiderivative_scal. apply antiderivative_power.
Qed.

(** ** Exact rules *)
Definition exact (n : nat) (l : rule1) (a b : R) : Prop := forall f, poly n f -> integral f a b (quadrature1 l f).
Definition moments (n : nat) (l : rule1) (a b : R) : Prop :=
  forall k, (k < n)%nat -> quadrature1 l (fun x => x ^ k) = (b ^ S k - a ^ S k) / INR (S k).
Lemma quadrature1_sum : forall X l (f : X -> R -> R) m, quadrature1 l (fun x => rsum (map (fun t => f t x) m)) = rsum (map (fun t => quadrature1 l (f t)) m).
Proof.
  intros X l f m. unfold quadrature1. rewrite <- rsum_swap. apply rsum_ext. intros p _. rewrite rsum_scal. reflexivity.
Qed.
Lemma quadrature1_ext : forall l f g, (forall p, In p l -> f (fst p) = g (fst p)) -> quadrature1 l f = quadrature1 l g.
Proof. intros l f g E. apply rsum_ext. intros p I. rewrite (E p I). reflexivity. Qed.
Lemma quadrature1_scal : forall l a f, quadrature1 l (fun x => a * f x) = a * quadrature1 l f.
Proof. intros. unfold quadrature1. rewrite <- rsum_scal. apply rsum_ext. intros. ring. Qed.
Lemma moments_exact : forall n l a b, moments n l a b -> exact n l a b.
Proof.
  intros n l a b M f [c [F H]].
  exists (fun x => rsum (map (fun t => fst t * (x ^ S (snd t) / INR (S (snd t)))) c)). split.
  - apply (antiderivative_ext _ (fun x => rsum (map (fun t => fst t * x ^ snd t) c))); [intros; symmetry; apply H|].
    apply (antiderivative_sum _ (fun t x => fst t * (x ^ S (snd t) / INR (S (snd t)))) (fun t x => fst t * x ^ snd t)).
    intros t _. apply antiderivative_scal. apply antiderivative_power.
  - rewrite (quadrature1_ext l f (fun x => rsum (map (fun t => fst t * x ^ snd t) c))) by (intros; apply H).
    rewrite (quadrature1_sum _ l (fun t x => fst t * x ^ snd t)).
    transitivity (rsum (map (fun t => fst t * (b ^ S (snd t) / INR (S (snd t))) + -1 * (fst t * (a ^ S (snd t) / INR (S (snd t))))) c)).
    + apply rsum_ext. intros t I. rewrite Forall_forall in F. rewrite quadrature1_scal, M by (apply F; exact I).
      field. apply not_0_INR. lia.
    + rewrite rsum_plus, rsum_scal. ring.
Qed.
Lemma exact_affine : forall n l a b c h, exact n l a b -> exact n (map (fun p => (c + h * fst p, h * snd p)) l) (c + h * a) (c + h * b).
Proof.
  intros n l a b c h E f Pf. destruct (poly_integrable n f Pf) as [P A]. exists P. split; [exact A|].
  assert (Pg : poly n (fun x => h * f (c + h * x))) by (apply poly_scal, poly_affine; exact Pf).
  transitivity (quadrature1 l (fun x => h * f (c + h * x))).
  - unfold quadrature1. rewrite map_map. apply rsum_ext. intros p _. cbn [fst snd]. ring.
  - apply (integral_unique _ _ a b _ _ (fun x => eq_refl) (E _ Pg)). exists (fun x => P (c + h * x)). split; [|reflexivity].
    apply antiderivative_affine. exact A.
Qed.

(** ** Two variables *)
Lemma poly2_ext : forall n m f g, (forall x y, f x y = g x y) -> poly2 n m f -> poly2 n m g.
Proof. intros n m f g E [c [F H]]. exists c. split; [exact F|]. intros x y. rewrite <- E. apply H. Qed.
Lemma poly2_mono : forall n m n' m' f, (n <= n')%nat -> (m <= m')%nat -> poly2 n m f -> poly2 n' m' f.
Proof. intros n m n' m' f L L' [c [F H]]. exists c. split; [|exact H]. eapply Forall_impl; [|exact F]. intros t Ht. cbn in *. lia. Qed.
Lemma poly2_plus : forall n m f g, poly2 n m f -> poly2 n m g -> poly2 n m (fun x y => f x y + g x y).
Proof. intros n m f g [c [F H]] [c' [F' H']]. exists (c ++ c'). split; [apply Forall_app; tauto|]. intros x y. rewrite map_app, rsum_app, H, H'. reflexivity. Qed.
Lemma poly2_scal : forall n m a f, poly2 n m f -> poly2 n m (fun x y => a * f x y).
Proof.
  intros n m a f [c [F H]]. exists (map (fun t => (a * fst (fst t), snd (fst t), snd t)) c). split; [apply Forall_map; exact F|].
  intros x y. rewrite map_map, H, <- rsum_scal. apply rsum_ext. intros t _. cbn [fst snd]. ring.
Qed.
Lemma poly2_const : forall n m a, (0 < n)%nat -> (0 < m)%nat -> poly2 n m (fun _ _ => a).
Proof. intros n m a L L'. exists [(a, 0%nat, 0%nat)]. split; [repeat constructor; assumption|]. intros x y. cbn [map]. rewrite rsum_cons, rsum_nil. cbn [fst snd pow]. ring. Qed.
Lemma poly2_mul : forall n m n' m' f g, poly2 (S n) (S m) f -> poly2 (S n') (S m') g -> poly2 (S (n + n')) (S (m + m')) (fun x y => f x y * g x y).
Proof.
  intros n m n' m' f g [c [F H]] [c' [F' H']].
  exists (concat (map (fun t => map (fun t' => (fst (fst t) * fst (fst t'), (snd (fst t) + snd (fst t'))%nat, (snd t + snd t')%nat)) c') c)). split.
  - apply Forall_forall. intros t I. apply in_concat in I. destruct I as [l [Il I]]. apply in_map_iff in Il. destruct Il as [u [<- Iu]].
    apply in_map_iff in I. destruct I as [u' [<- Iu']]. rewrite Forall_forall in F, F'. specialize (F u Iu). specialize (F' u' Iu'). cbn in *. lia.
  - intros x y. rewrite rsum_concat, H, H'. rewrite Rmult_comm, <- rsum_scal. apply rsum_ext. intros t _. rewrite map_map, Rmult_comm, <- rsum_scal.
    apply rsum_ext. intros t' _. cbn [fst snd]. rewrite !pow_add. ring.
Qed.
Lemma poly2_sum : forall X n m (f : X -> R -> R -> R) l, (forall t, In t l -> poly2 n m (f t)) -> poly2 n m (fun x y => rsum (map (fun t => f t x y) l)).
Proof.
  induction l as [|t l IH]; intros A.
  - exists []. split; [constructor|]. reflexivity.
  - cbn [map]. apply (poly2_plus n m (f t) (fun x y => rsum (map (fun t => f t x y) l))); [apply A; left; reflexivity|apply IH; intros; apply A; right; assumption].
Qed.
Lemma poly2_pow : forall k f, poly2 2 2 f -> poly2 (S k) (S k) (fun x y => f x y ^ k).
Proof.
  induction k; intros f P.
  - apply (poly2_const 1 1 1); lia.
  - cbn [pow]. apply (poly2_mul 1 1 k k f (fun x y => f x y ^ k)); [exact P|]. apply IHk. exact P.
Qed.
Lemma poly_total_comp : forall n f X Y, poly_total n f -> poly2 2 2 X -> poly2 2 2 Y -> poly2 n n (fun s t => f (X s t) (Y s t)).
Proof.
  intros n f X Y [c [F H]] PX PY.
  apply (poly2_ext n n (fun s t => rsum (map (fun u => fst (fst u) * X s t ^ snd (fst u) * Y s t ^ snd u) c))); [intros; symmetry; apply H|].
  apply (poly2_sum _ n n (fun u s t => fst (fst u) * X s t ^ snd (fst u) * Y s t ^ snd u)). intros u I. rewrite Forall_forall in F. apply F in I.
  apply (poly2_ext n n (fun s t => fst (fst u) * (X s t ^ snd (fst u) * Y s t ^ snd u))); [intros; ring|]. apply poly2_scal.
  apply (poly2_mono (S (snd (fst u) + snd u)) (S (snd (fst u) + snd u))); [lia|lia|].
  apply (poly2_mul _ _ _ _ (fun s t => X s t ^ snd (fst u)) (fun s t => Y s t ^ snd u)); apply poly2_pow; assumption.
Qed.
(** Two rules combined *)
Definition product (l l' : rule1) : rule2 := concat (map (fun p => map (fun q => (fst p, fst q, snd p * snd q)) l') l).
Lemma quadrature2_product : forall l l' f, quadrature2 (product l l') f = quadrature1 l' (fun y => quadrature1 l (fun x => f x y)).
Proof.
  intros l l' f. unfold quadrature2, product. rewrite rsum_concat. unfold quadrature1.
  transitivity (rsum (map (fun p => rsum (map (fun q => snd p * snd q * f (fst p) (fst q)) l')) l)).
  - apply rsum_ext. intros p _. rewrite map_map. apply rsum_ext. intros q _. reflexivity.
  - rewrite rsum_swap. apply rsum_ext. intros q _. rewrite <- rsum_scal. apply rsum_ext. intros p _. ring.
Qed.
Lemma product_exact : forall n m l l' a b c d f, exact n l a b -> exact m l' c d -> poly2 n m f -> integral2 f a b c d (quadrature2 (product l l') f).
Proof.
  intros n m l l' a b c d f E E' [u [F H]]. rewrite quadrature2_product. exists (fun y => quadrature1 l (fun x => f x y)). split.
  - intros y. apply E. exists (map (fun t => (fst (fst t) * y ^ snd t, snd (fst t))) u). split.
    + apply Forall_map. eapply Forall_impl; [|exact F]. cbn. tauto.
    + intros x. rewrite map_map, H. apply rsum_ext. intros t _. cbn [fst snd]. ring.
  - apply E'. exists (map (fun t => (fst (fst t) * quadrature1 l (fun x => x ^ snd (fst t)), snd t)) u). split.
    + apply Forall_map. eapply Forall_impl; [|exact F]. cbn. tauto.
    + intros y. rewrite map_map. cbn [fst snd].
      rewrite (quadrature1_ext l (fun x => f x y) (fun x => rsum (map (fun t => fst (fst t) * x ^ snd (fst t) * y ^ snd t) u))) by (intros; apply H).
      rewrite (quadrature1_sum _ l (fun t x => fst (fst t) * x ^ snd (fst t) * y ^ snd t)). apply rsum_ext. intros t _.
      transitivity (quadrature1 l (fun x => (fst (fst t) * y ^ snd t) * x ^ snd (fst t))).
      * apply quadrature1_ext. intros; ring.
      * rewrite quadrature1_scal. ring.
Qed.
