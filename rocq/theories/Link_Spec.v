(** * Link_Spec: what a well-formed link tree is, stated on the references alone. *)
From Coq Require Import List Arith Permutation.
From Verif Require Import Num Vec Motor_Model Joint_Model Joint_Spec Body_Model Tree Tree_Proofs Link_Model.
Import ListNotations.

(** [below ops p c]: following the attachments [ops] (parent, child) upward from [p] one meets [c]. *)
Inductive below (ops : list (nat * nat)) : nat -> nat -> Prop :=
| below_refl p : below ops p p
| below_step p q c : In (q, p) ops -> below ops q c -> below ops p c.

(** A legal sequence of rkLinkAddChild calls on [n] links, [done] being the calls already made: each
    link is attached at most once and never below itself. *)
Inductive legal (n : nat) : list (nat * nat) -> list (nat * nat) -> Prop :=
| legal_nil done : legal n done []
| legal_cons done p c ops :
    p < n -> c < n -> ~ In c (map snd done) -> ~ below done p c ->
    legal n (done ++ [(p, c)]) ops -> legal n done ((p, c) :: ops).

Section LinkSpec.
Context {F : Type}.

(** A link as rkLinkInit leaves its references. *)
Definition unattached (l : link F) : Prop := l_parent l = None /\ l_child l = None /\ l_sibl l = None.

(** The indices met on the sibling chain starting at [o]. *)
Fixpoint chain_from (fuel : nat) (h : list (link F)) (o : option nat) : option (list nat) :=
  match o with
  | None => Some []
  | Some i =>
    match fuel with
    | O => None
    | S k => match nth_error h i with
             | None => None
             | Some l => option_map (cons i) (chain_from k h (l_sibl l))
             end
    end
  end.
(** The child list of link [p]. *)
Definition children (h : list (link F)) (p : nat) : option (list nat) :=
  match nth_error h p with Some l => chain_from (length h) h (l_child l) | None => None end.
(** The children attached to [p] by [ops], in the order of the calls. *)
Definition attached_to (ops : list (nat * nat)) (p : nat) : list nat :=
  map snd (filter (fun x => Nat.eqb (fst x) p) ops).

(** The references of [h] form one tree rooted at link 0 containing every link. *)
Definition lrep := @rep (link F) l_parent l_child l_sibl.
Definition tree_of (h : list (link F)) (k : forest) : Prop :=
  lrep h None (Some 0) (FCons 0 k FNil) /\ Permutation (ids (FCons 0 k FNil)) (seq 0 (length h)).
Definition well_formed (h : list (link F)) : Prop := exists k, tree_of h k.
(** Everything but the references. *)
Definition same_data (a b : link F) : Prop :=
  l_name a = l_name b /\ l_joint a = l_joint b /\ l_body a = l_body b /\ l_offset a = l_offset b
  /\ l_org a = l_org b /\ l_adj a = l_adj b /\ l_wrench a = l_wrench b.
End LinkSpec.

Section CloneSpec.
Context {F : Type} {N : Num F} {E : Ext F}.
(** A reference is null or designates one of the [n] links. *)
Definition ref_ok (n : nat) (o : option nat) : Prop := match o with None => True | Some i => i < n end.
Definition refs_ok (h : list (link F)) : Prop := forall i l, nth_error h i = Some l ->
  ref_ok (length h) (l_parent l) /\ ref_ok (length h) (l_child l) /\ ref_ok (length h) (l_sibl l).
(** What a link of a clone shares with its original. *)
Definition clone_of (l l' : link F) : Prop :=
  l_name l' = l_name l /\ l_offset l' = l_offset l /\ l_org l' = l_org l /\ l_adj l' = l_adj l /\ l_wrench l' = l_wrench l /\
  l_parent l' = l_parent l /\ l_child l' = l_child l /\ l_sibl l' = l_sibl l /\
  l_mass l' = l_mass l /\ b_mp (l_body l') = b_mp (l_body l) /\
  l_frame l' = l_frame l /\ l_vel l' = l_vel l /\ l_acc l' = l_acc l /\
  b_wcom (l_body l') = b_wcom (l_body l) /\ b_comvel (l_body l') = b_comvel (l_body l) /\ b_comacc (l_body l') = b_comacc (l_body l) /\
  body_ext_wrench (l_body l') = body_ext_wrench (l_body l) /\ Permutation (b_shapes (l_body l')) (b_shapes (l_body l)) /\
  jtype_of (l_joint l') = jtype_of (l_joint l) /\ joint_get_vel (l_joint l') = joint_get_vel (l_joint l) /\
  joint_get_acc (l_joint l') = joint_get_acc (l_joint l) /\ joint_get_trq (l_joint l') = joint_get_trq (l_joint l) /\
  joint_motor (l_joint l') = joint_motor (l_joint l).
End CloneSpec.
