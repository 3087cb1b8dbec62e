(** * Specification for kernels and sampled forms *)
From Coq Require Import List Arith QArith.
From Verif Require Import Tree Kernel.
Import ListNotations.
Open Scope Q_scope.

(** sample s of a function at point g: a deterministic function has one column *)
Definition sample_at (v : table) (g s : nat) : Q :=
  match nth g v [] with [c] => c | r => nth s r 0 end.
(** a map keeps its promise: one row per point, one column per sample, at least one sample *)
Definition rectangular (np ns : nat) (v : table) : Prop := length v = np /\ Forall (fun r => length r = ns) v.
Definition keeps {X D} (f : kmap X D) : Prop :=
  (0 < map_samples f)%nat /\
  match f with
  | KExplicit ns ev => forall x v, ev x = Ok v -> rectangular (length x) ns v
  | KNodal ns b ev evp => (forall d x v, ev d x = Ok v -> rectangular (length x) ns v) /\
                          (forall p ds v, evp p ds = Ok v -> rectangular (length p) ns v)
  end.
(** the values of the functions of the kernel in a region *)
Definition function_value {X D} (fd : kmap X D * option D) (r : region X) (g s : nat) : Q :=
  match map_eval (fst fd) (snd fd) (r_x r) (Some (r_phi r)) (Some (r_dofs r)) with Ok v => sample_at v g s | Err _ => 0 end.
Definition kernel_value {X D} (k : kernel X D) (r : region X) (g s : nat) : Q :=
  k_F k (map (fun fd => function_value fd r g s) (combine (k_f k) (k_d k))).
Definition shape_value {X} (b : nat) (r : region X) (g a : nat) : Q :=
  match get b (r_phi r) with Ok t => nth a (nth g t []) 0 | Err _ => 0 end.
(** quadrature of sample s over the regions *)
Definition quadrature {X} (rs : list (region X)) (fn : region X -> nat -> Q) : Q :=
  fold_right Qplus 0 (map (fun r => fold_right Qplus 0 (map (fun g => nth g (r_w r) 0 * fn r g) (seq 0 (length (r_w r))))) rs).
(** regions in which the tables have one row per node *)
Definition region_ok {X} (r : region X) : Prop :=
  length (r_w r) = length (r_x r) /\ Forall (fun p => length (snd p) = length (r_x r)) (r_phi r).
