(** * Local matrices of integral operators (src/assembler.py: IIForm.eval 1510-1586, IPForm.eval 1639-1738)

    One sample, a kernel that is a function of two points.  A region: for every
    quadrature node its position, its weight and the values of the shape functions
    there (xg, wg, phi).  Positions may be in one or two dimensions (type X). *)
From Coq Require Import List Arith Reals.
From Verif Require Import Tree Quadrature.
Import ListNotations.
Open Scope R_scope.

Record qnode (X : Type) := mkQ { q_x : X; q_w : R; q_phi : list R }.
Arguments mkQ {X}. Arguments q_x {X}. Arguments q_w {X}. Arguments q_phi {X}.
Definition rmat := list (list R).
Definition rentry (M : rmat) (i j : nat) : R := nth j (nth i M []) 0.
Definition rtab (m n : nat) (f : nat -> nat -> R) : rmat := map (fun i => map (f i) (seq 0 n)) (seq 0 m).

Section Eval.
Context {X : Type} (K : X -> X -> R) (m n : nat).
(** 1725-1733: Wphii.T . (C_loc . Wphij), entry i, j *)
Definition pair_term (ri rj : list (qnode X)) (i j : nat) : R :=
  rsum (map (fun p => q_w p * nth i (q_phi p) 0 * rsum (map (fun q => K (q_x p) (q_x q) * (q_w q * nth j (q_phi q) 0)) rj)) ri).
(** 1672-1735: one pair of regions.  The points are paired by meshgrid(ig, ig) of the
    first rule: a shorter second rule is indexed out of bounds (1706), with a longer
    one the shapes of C_loc and Wphij do not fit (1733) *)
Definition ip_pair (f : option rmat) (ri rj : list (qnode X)) : res (option rmat) :=
  let f0 := match f with None => rtab m n (fun _ _ => 0) | Some M => M end in
  if (length rj <? length ri)%nat then Err IndexError
  else if (length ri <? length rj)%nat then Err ValueError
  else Ok (Some (rtab m n (fun i j => rentry f0 i j + pair_term ri rj i j))).
Fixpoint ip_inner (f : option rmat) (ri : list (qnode X)) (regj : list (list (qnode X))) : res (option rmat) :=
  match regj with [] => Ok f | rj :: rest => bind (ip_pair f ri rj) (fun f' => ip_inner f' ri rest) end.
Fixpoint ip_outer (f : option rmat) (regi regj : list (list (qnode X))) : res (option rmat) :=
  match regi with [] => Ok f | ri :: rest => bind (ip_inner f ri regj) (fun f' => ip_outer f' rest regj) end.
(** IPForm.eval, 1672-1738; m, n: the numbers of test and trial dofs of an element *)
Definition ip_eval (regi regj : list (list (qnode X))) : res (option rmat) := ip_outer None regi regj.

(** IIForm.eval 1530-1586: pts: the dof vertices.  Everything is inside
    'if f_loc is None' (1553-1585): only the first region counts *)
Definition ii_eval (pts : list X) (reg : list (list (qnode X))) : option rmat :=
  match reg with
  | [] => None
  | r :: _ => Some (map (fun x => map (fun j => rsum (map (fun q => K x (q_x q) * (q_w q * nth j (q_phi q) 0)) r)) (seq 0 n)) pts)
  end.
End Eval.
