(** * Walk: the recursion schemes of the articulated body algorithm (rk_abi.c) on link trees.
    As in [Tree], a pointer into the link array is an index, NULL is [None], and a recursion that would
    dereference NULL, leave the array or run out of fuel yields [None]. *)
From Coq Require Import List Arith.
From Verif Require Import Tree.
Import ListNotations.

Section Walk.
Context {L S P : Type} (parent child sibl : L -> option nat).

Definition opt_walk {A} (o : option nat) (x : A) (f : nat -> option A) : option A := match o with None => Some x | Some i => f i end.
Definition on_nth {A} (h : list L) (i : nat) (f : L -> option A) : option A := match nth_error h i with None => None | Some l => f l end.
Definition bind {A B} (x : option A) (f : A -> option B) : option B := match x with None => None | Some a => f a end.

(** _rkLinkABIUpdateBackward, rk_abi.c 146-163: [fin] is what is done to the link itself, [give] what is
    added to its parent. *)
Definition back_self (fin : L -> L) (give : L -> L -> L) (h : list L) (i : nat) : option (list L) :=
  on_nth h i (fun l =>
    let h1 := set_nth i (fin l) h in
    opt_walk (parent (fin l)) h1 (fun q => on_nth h1 q (fun lq => Some (set_nth q (give (fin l) lq) h1)))).
(** rkLinkABIUpdateBackward, rk_abi.c 166-174: the sibling, the child, then the link itself. *)
Fixpoint walk_back (fin : L -> L) (give : L -> L -> L) (fuel : nat) (h : list L) (i : nat) : option (list L) :=
  match fuel with
  | O => None
  | Datatypes.S k => on_nth h i (fun l =>
      bind (opt_walk (sibl l) h (fun s => walk_back fin give k h s)) (fun h1 =>
      on_nth h1 i (fun l1 =>
      bind (opt_walk (child l1) h1 (fun c => walk_back fin give k h1 c)) (fun h2 =>
      back_self fin give h2 i))))
  end.
(** rkLinkABIUpdateForward and rkLinkABIUpdateForwardGetWrench, rk_abi.c 193-215: the link, the sibling with the same
    parameters, then the child with parameters read from the link.  [st] is what the update can change besides
    the link. *)
Fixpoint walk_fwd (upd : S -> L -> P -> S * L) (par : L -> P) (fuel : nat) (st : S) (h : list L) (i : nat) (p : P) : option (S * list L) :=
  match fuel with
  | O => None
  | Datatypes.S k => on_nth h i (fun l =>
      let (st1, l1) := upd st l p in
      bind (opt_walk (sibl l1) (st1, set_nth i l1 h) (fun s => walk_fwd upd par k st1 (set_nth i l1 h) s p)) (fun x =>
      let (st2, h2) := x in
      on_nth h2 i (fun l2 => opt_walk (child l2) (st2, h2) (fun c => walk_fwd upd par k st2 h2 c (par l2)))))
  end.
(** _rkLinkABIFindBackwardPathAddExForce, rk_abi.c 279-289: children, siblings, then [mark] on the parent if the
    link [holds]. *)
Fixpoint walk_mark (holds : L -> bool) (mark : L -> L) (fuel : nat) (h : list L) (i : nat) : option (list L) :=
  match fuel with
  | O => None
  | Datatypes.S k => on_nth h i (fun l =>
      bind (opt_walk (child l) h (fun c => walk_mark holds mark k h c)) (fun h1 =>
      on_nth h1 i (fun l1 =>
      bind (opt_walk (sibl l1) h1 (fun s => walk_mark holds mark k h1 s)) (fun h2 =>
      on_nth h2 i (fun l2 =>
      opt_walk (parent l2) h2 (fun q => if holds l2 then on_nth h2 q (fun lq => Some (set_nth q (mark lq) h2)) else Some h2))))))
  end.
(** _rkLinkABIUpdateBackwardAddExForce, rk_abi.c 301-313: a link on the path is reset and visited after its children, any
    other link is only corrected; both give to the parent, then the sibling follows. *)
Definition give_up (give : L -> L -> L) (h : list L) (i : nat) : option (list L) :=
  on_nth h i (fun l => opt_walk (parent l) h (fun q => on_nth h q (fun lq => Some (set_nth q (give l lq) h)))).
Fixpoint walk_ex (path : L -> bool) (reset corr : L -> L) (give : L -> L -> L) (fuel : nat) (h : list L) (i : nat) : option (list L) :=
  match fuel with
  | O => None
  | Datatypes.S k => on_nth h i (fun l =>
      bind (if path l
            then let h1 := set_nth i (corr (reset l)) h in opt_walk (child (corr (reset l))) h1 (fun c => walk_ex path reset corr give k h1 c)
            else Some (set_nth i (corr l) h)) (fun h2 =>
      bind (give_up give h2 i) (fun h3 =>
      on_nth h3 i (fun l3 => opt_walk (sibl l3) h3 (fun s => walk_ex path reset corr give k h3 s)))))
  end.
(** [for( l=rkLinkParent(link); l; l=rkLinkParent(l) )], rk_abi.c 386-392. *)
Fixpoint mark_up (mark : L -> L) (fuel : nat) (h : list L) (o : option nat) : option (list L) :=
  match o with
  | None => Some h
  | Some i =>
    match fuel with
    | O => None
    | Datatypes.S k => on_nth h i (fun l => mark_up mark k (set_nth i (mark l) h) (parent l))
    end
  end.
End Walk.
