(** * Specification for sampled forms: one sample of everything *)
From Coq Require Import List Arith Bool QArith.
From Verif Require Import Tree Geom Dof Solver Basis Assemble Samples.
Import ListNotations.
Open Scope Q_scope.

(** sample i of a row; a row of one number does not depend on the sample *)
Definition pick {X} (d : X) (i : nat) (r : list X) : X := nth (if (length r =? 1)%nat then 0%nat else i) r d.
(** samples i0, i1, i2 of the constant, linear, bilinear forms on a cell *)
Definition sample_local (i0 i1 i2 : nat) (f : slocal) : local :=
  match f with
  | SConstant v => Constant (pick 0 i0 v)
  | SLinear t v => Linear t (map (pick 0 i1) v)
  | SBilinear t u M => Bilinear t u (pick [] i2 M)
  end.
Definition sample_cells i0 i1 i2 (cells : list (nat * list slocal)) : list (nat * list local) :=
  map (fun c => (fst c, map (sample_local i0 i1 i2) (snd c))) cells.
Definition sample_dir i (dir : list (nat * row)) : list (nat * Q) := map (fun p => (fst p, pick 0 i (snd p))) dir.
(** samples of the assembled arrays *)
Definition sample_arrays (i0 i1 i2 : nat) (a : sarrays) : arrays :=
  mkR (option_map (fun r => mkR0 (nth i0 r 0)) (t0 a))
      (option_map (fun T => mkR1 (sv_dofs T) (nth i1 (sv_vecs T) [])) (t1 a))
      (option_map (fun T => mkR2 (sm_rows T) (sm_cols T) (nth i2 (sm_mats T) []) (nth_error (sm_x0 T) i2)) (t2 a)).
Definition res_map {X Y} (f : X -> Y) (r : res X) : res Y := match r with Ok x => Ok (f x) | Err e => Err e end.

(** what a form (dimension, sample size) gives on a cell *)
Definition evaluated (form : nat * nat) (f : slocal) : Prop :=
  match f with
  | SConstant v => fst form = 0%nat /\ length v = snd form
  | SLinear t v => fst form = 1%nat /\ Forall (fun r => length r = snd form) v
  | SBilinear t u M => fst form = 2%nat /\ length M = snd form /\ Forall (fun A => shape (length t) (length u) A = true) M
  end.
(** all forms of dimension k have the same sample size; sizes other than one agree *)
Definition uniform (k : nat) (forms : list (nat * nat)) : Prop :=
  forall f f', In f forms -> In f' forms -> fst f = k -> fst f' = k -> snd f = snd f'.
Definition compatible (k : nat) (forms : list (nat * nat)) : Prop :=
  forall f f', In f forms -> In f' forms -> fst f = k -> fst f' = k -> (1 < snd f)%nat -> (1 < snd f')%nat -> snd f = snd f'.
