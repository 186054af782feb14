(** * Shape_Model: vertices and bounding ball of a chain (rk_chain.c 537-579), contiguous vertex of a body (rk_body.c 288-294),
    and the conversions of chains to multiple shapes and back (/repo/app/chain2mshape.c, /repo/app/mshape2chain.c).

    Shapes belong to ZEO.  A polyhedron is its vertices and the vertex numbers of its faces; the other shapes are opaque, with
    their transformation and their conversion to a polyhedron as parameters.  Allocation succeeds.  [None]: undefined behaviour. *)
From Coq Require Import Bool String List Arith.
From Verif Require Import Num Vec Motor_Model Joint_Model Body_Model Tree Link_Model Ztk_Model.
Import ListNotations.
Set Implicit Arguments.

(** Shapes that are no polyhedra: zShape3DXform, and the vertices of zShape3DToPH ([None]: it fails). *)
Class ShapeExt (F : Type) := mkShapeExt { prim : Type; prim_xform : frame F -> prim -> prim; prim_vert : prim -> option (list (vec3 F)) }.

Section Shape.
Context {F : Type} {N : Num F} {E : Ext F} {Z : ZtkLib} {S : ShapeExt F}.
Inductive shape := Poly (vert : list (vec3 F)) (face : list (nat * nat * nat)) | Prim (p : prim).
(** zShape3DClone and zShape3DXform. *)
Definition shape_xform (f : frame F) (s : shape) : shape :=
  match s with Poly v fc => Poly (map (xform f) v) fc | Prim p => Prim (prim_xform f p) end.

(** ** rkChainVertList *)
(** The body of the loop over the shapes of a link, rk_chain.c 549-562: polyhedra and other shapes. *)
Definition shape_verts (f : frame F) (s : shape) : option (list (vec3 F)) :=
  match s with Poly v _ => Some (map (xform f) v) | Prim p => prim_vert (prim_xform f p) end.
(** The vertices in the order in which they are added.  Inner [None]: the null pointer. *)
Fixpoint shapes_verts (arr : list shape) (f : frame F) (is : list nat) : option (option (list (vec3 F))) :=
  match is with
  | [] => Some (Some [])
  | i :: is' => match nth_error arr i with
                | None => None
                | Some s => match shape_verts f s with
                            | None => Some None
                            | Some v => option_map (option_map (app v)) (shapes_verts arr f is')
                            end
                end
  end.
(** rkChainVertList, rk_chain.c 537-566.  [arr]: the shapes of the chain. *)
Fixpoint links_verts (arr : list shape) (h : list (link F)) : option (option (list (vec3 F))) :=
  match h with
  | [] => Some (Some [])
  | l :: h' => match shapes_verts arr (l_frame l) (b_shapes (l_body l)) with
               | None => None
               | Some None => Some None
               | Some (Some v) => option_map (option_map (app v)) (links_verts arr h')
               end
  end.
Definition chain_vert_list (arr : list shape) (c : chain F) : option (option (list (vec3 F))) := links_verts arr (c_links c).
(** rkChainBBall, rk_chain.c 569-579; [bball] is zBBall3DPL: center and radius. *)
Definition chain_bball (bball : list (vec3 F) -> vec3 F * F) (arr : list shape) (c : chain F) : option (option (vec3 F * F)) :=
  option_map (option_map bball) (chain_vert_list arr c).

(** ** rkBodyContigVert *)
(** rk_body.c 288-294; [contig] is zShapeListContigVert on the vertices of the shapes: the vertex and its distance. *)
Definition body_contig_vert (contig : list (vec3 F) -> vec3 F -> option (vec3 F * F)) (vs : list (vec3 F)) (f : frame F) (p : vec3 F) : option (vec3 F * F) :=
  contig vs (xforminv f p).

(** ** chain2mshape, mshape2chain *)
(** The [shape] sections of a file: names and shapes.  chain2mshapeConvert, chain2mshape.c 9-37 (optical sections left out). *)
Fixpoint omap_shapes (arr : list (string * shape)) (f : frame F) (is : list nat) : option (list (string * shape)) :=
  match is with
  | [] => Some []
  | i :: is' => match nth_error arr i, omap_shapes arr f is' with Some (n, s), Some t => Some ((n, shape_xform f s) :: t) | _, _ => None end
  end.
Fixpoint chain2mshape (arr : list (string * shape)) (h : list (link F)) : option (list (string * shape)) :=
  match h with
  | [] => Some []
  | l :: h' => match omap_shapes arr (l_frame l) (b_shapes (l_body l)), chain2mshape arr h' with Some a, Some b => Some (a ++ b) | _, _ => None end
  end.
(** mshape2chainConvert, mshape2chain.c 9-27: the chain file, whose shapes are those read. *)
Definition mshape2chain (base : string) (ms : list (string * shape)) : ztk F :=
  Ztk [KName base] (map fst ms) [] [KName "base" :: map (fun m => KShape (fst m)) ms] [].
End Shape.
Arguments shape F {S}.
