(** * CD_Spec: what the collision detector should report, stated from the registered shapes only. *)

From Coq Require Import Bool List Arith.
From Verif Require Import Num Vec CD_Model.
Import ListNotations.

Section Spec.
Context {F BX AB : Type} {N : Num F} {X : CDExt F BX AB}.
Notation cell := (cell F BX AB).
Notation cd := (cd F BX AB).
Notation pair := (pair F).
Notation op := (op F).

(** ** Registry *)

(** Two pairs of the same cells, in either order. *)
Definition same_pair (p q : pair) : Prop :=
  (p_c0 p = p_c0 q /\ p_c1 p = p_c1 q) \/ (p_c0 p = p_c1 q /\ p_c1 p = p_c0 q).

(** The pair refers to the cells a and b. *)
Definition of_cells (s : cd) (p : pair) (a b : cell) : Prop :=
  In a (d_cells s) /\ In b (d_cells s) /\ k_addr a = p_c0 p /\ k_addr b = p_c1 p.

(** Cells have distinct addresses, pairs refer to two distinct registered cells, none is listed twice. *)
Definition consistent (s : cd) : Prop :=
  NoDup (map k_addr (d_cells s)) /\
  (forall p, In p (d_pairs s) -> exists a b, of_cells s p a b /\ a <> b) /\
  ForallOrdPairs (fun p q => ~ same_pair p q) (d_pairs s).

Definition links_differ (s : cd) : Prop :=
  forall p a b, In p (d_pairs s) -> of_cells s p a b -> k_link a <> k_link b.
Definition one_moves (s : cd) : Prop :=
  forall p a b, In p (d_pairs s) -> of_cells s p a b -> k_type a = Move \/ k_type b = Move.

(** The pair of the cells a and b is registered. *)
Definition registered (s : cd) (a b : cell) : Prop :=
  exists p, In p (d_pairs s) /\
    ((p_c0 p = k_addr a /\ p_c1 p = k_addr b) \/ (p_c0 p = k_addr b /\ p_c1 p = k_addr a)).

(** ** Geometry *)

(** Where the shape of a cell is: a stationary one stays where it was registered. *)
Definition pose (w : nat -> frame F) (c : cell) : frame F :=
  match k_type c with Stat => k_reg c | Move => w (k_link c) end.
Definition wbox (w : nat -> frame F) (c : cell) : BX := x_bxf (x_obb (vts (k_shape c))) (pose w c).
Definition wph (w : nat -> frame F) (c : cell) : ph F := place (k_shape c) (pose w c).

(** The outcome of a check for a pair of cells. *)
Definition outcome (k : check) (w : nat -> frame F) (a b : cell) : bool :=
  let aabb := x_caab (x_aab (wbox w a)) (x_aab (wbox w b)) in
  let obb := x_cbox (wbox w a) (wbox w b) in
  match k with
  | CkAABB => aabb
  | CkOBB => aabb && obb
  | CkGJK => aabb && obb && x_cph (wph w a) (wph w b)
  | CkGJKOnly => x_cph (wph w a) (wph w b)
  | CkVol v => aabb && obb && x_vol v (wph w a) (wph w b)
  | CkVert | CkOBBVert => aabb && obb
  end.

(** The data of a cell fixed at registration. *)
Definition fixed (c : cell) :=
  (k_addr c, k_chain c, k_link c, k_type c, k_shape c, k_reg c).

(** Histories in which rkCDColChkOBBVert is not used. *)
Definition no_obbvert (o : op) : Prop := match o with Check CkOBBVert => False | _ => True end.

(** The blocks the allocator returned for the cells, in the order of allocation. *)
Definition blocks (o : op) : list nat :=
  match o with ChainReg _ _ ss => map (fun x => snd (fst x)) ss | _ => [] end.
End Spec.
