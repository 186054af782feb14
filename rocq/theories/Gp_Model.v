(** * Gp_Model: conversion of a chain to gnuplot data (/repo/app/chain2gp.c).

    Shapes as in Shape_Model.v.  The output is the list of its lines: a point ([Some]) or an empty line ([None]).  Reading of the
    chain file, option handling and the text of numbers are not modelled.  Outer [None]: undefined behaviour. *)
From Coq Require Import Bool List Arith.
From Verif Require Import Num Vec Motor_Model Joint_Model Body_Model Tree Link_Model Shape_Model.
Import ListNotations.
Set Implicit Arguments.

Section Gp.
Context {F : Type} {N : Num F} {E : Ext F} {S : ShapeExt F}.
Notation line := (option (vec3 F)).
(** The body of the loop of output_shape, chain2gp.c 14-19; corners are found by the vertex numbers of the face. *)
Definition gp_face (v : list (vec3 F)) (f : nat * nat * nat) : option (list line) :=
  let '(i, j, k) := f in
  match nth_error v i, nth_error v j, nth_error v k with
  | Some a, Some b, Some c => Some [Some a; Some b; None; Some c; Some c; None; None]
  | _, _, _ => None
  end.
(** Loops that print, in order. *)
Fixpoint gp_all {A} (g : A -> option (list line)) (l : list A) : option (list line) :=
  match l with
  | [] => Some []
  | a :: t => match g a, gp_all g t with Some x, Some y => Some (x ++ y) | _, _ => None end
  end.
(** output_shape, chain2gp.c 9-21: zShape3DFaceNum and zShape3DFaceVert take the shape for a polyhedron. *)
Definition output_shape (s : shape F) : option (list line) := match s with Poly v fc => gp_all (gp_face v) fc | Prim _ => None end.
(** conv_chain, chain2gp.c 33-42; a link without shapes prints nothing. *)
Definition gp_link (arr : list (shape F)) (l : link F) : option (list line) :=
  gp_all (fun i => match nth_error arr i with Some s => output_shape (shape_xform (l_frame l) s) | None => None end) (b_shapes (l_body l)).
Definition chain2gp (arr : list (shape F)) (c : chain F) : option (list line) := gp_all (gp_link arr) (c_links c).
End Gp.
