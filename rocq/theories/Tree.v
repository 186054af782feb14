(** Link trees: arrays of records linked by parent / first-child / next-sibling references
    (struct _rkLink, /repo/include/roki/rk_link.h 37-57), and the two recursion schemes used on them.
    A pointer into the link array is an index; NULL is [None].  A recursion that would dereference
    NULL or leave the array yields [None], and so does running out of fuel. *)
From Coq Require Import List Arith.
Import ListNotations.

Section Tree.
Context {L P : Type} (parent child sibl : L -> option nat).

(** Array update. *)
Fixpoint set_nth (i : nat) (x : L) (h : list L) : list L :=
  match h, i with
  | [], _ => []
  | _ :: t, O => x :: t
  | a :: t, S k => a :: set_nth k x t
  end.

(** The downward recursion of rkLinkUpdateFrame / UpdateVel / UpdateAcc / UpdateRate
    (rk_link.c 118-185): update the link, then the child with the parameters read from the updated
    link, then the sibling with the parameters read from the parent. *)
Fixpoint walk_down (upd : L -> P -> L) (par : L -> P) (fuel : nat) (h : list L) (i : nat) (p : P) : option (list L) :=
  match fuel with
  | O => None
  | S k =>
    match nth_error h i with
    | None => None
    | Some l =>
      let l' := upd l p in
      let h1 := set_nth i l' h in
      match (match child l' with None => Some h1 | Some c => walk_down upd par k h1 c (par l') end) with
      | None => None
      | Some h2 =>
        match nth_error h2 i with
        | None => None
        | Some l2 =>
          match sibl l2 with
          | None => Some h2
          | Some s =>
            match parent l2 with
            | None => None
            | Some q =>
              match nth_error h2 q with
              | None => None
              | Some lq => walk_down upd par k h2 s (par lq)
              end end end end end end end.

(** The sibling chain starting at [o]: the loop [for( ; child; child=rkLinkSibl(child) )]. *)
Fixpoint sib_list (fuel : nat) (h : list L) (o : option nat) : option (list L) :=
  match o with
  | None => Some []
  | Some i =>
    match fuel with
    | O => None
    | S k => match nth_error h i with
             | None => None
             | Some l => match sib_list k h (sibl l) with None => None | Some r => Some (l :: r) end
             end
    end
  end.

(** The upward recursion of rkLinkUpdateWrench (rk_link.c 188-211): first the subtree below the first
    child (and its siblings), then the link from its children, then the sibling.  [pre] is what is
    written to the link before the children are visited. *)
Fixpoint walk_up (pre : L -> L) (upd : L -> list L -> L) (fuel : nat) (h : list L) (i : nat) : option (list L) :=
  match fuel with
  | O => None
  | S k =>
    match nth_error h i with
    | None => None
    | Some l =>
      let h1 := set_nth i (pre l) h in
      match (match child (pre l) with None => Some h1 | Some c => walk_up pre upd k h1 c end) with
      | None => None
      | Some h2 =>
        match nth_error h2 i with
        | None => None
        | Some l2 =>
          match sib_list k h2 (child l2) with
          | None => None
          | Some cs =>
            let h3 := set_nth i (upd l2 cs) h2 in
            match sibl (upd l2 cs) with
            | None => Some h3
            | Some s => walk_up pre upd k h3 s
            end end end end end end.
End Tree.
