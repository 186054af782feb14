(** * Break_Spec: what the theorems on breakable joints say. *)
From Coq Require Import List Arith.
From Verif Require Import Num NumFacts Vec VecFacts Motor_Model Joint_Model Body_Model Link_Model ABI_Model ABI_Spec.
Import ListNotations.

Section BreakSpec.
Context {F : Type} {N : Num F} {L : NumLaws F N}.
Local Open Scope num_scope.

(** Thresholds that a wrench can be within. *)
Definition limit_ok (e : option F) : Prop := match e with Some x => 0 <= x | None => True end.
Definition limits_ok (j : joint F) : Prop := match j with JBrFloat _ ef et => limit_ok ef /\ limit_ok et | _ => True end.
Definition breakable (j : joint F) : Prop := match j with JBrFloat _ _ _ => True | _ => False end.
(** The norm of v is at most e. *)
Definition at_most (v : vec3 F) (e : option F) : Prop := match e with Some x => 0 <= x /\ v3sqr v <= x * x | None => True end.
(** The wrench is within the thresholds of the joint. *)
Definition withstands (j : joint F) (w : vec6 F) : Prop :=
  match j with JBrFloat _ ef et => at_most (vlin w) ef /\ at_most (vang w) et | _ => True end.
(** The link accelerates as if it were a part of its parent: [pa] is the acceleration of the parent. *)
Definition rides_along (l : link F) (a : abi F) (pa : vec6 F) : Prop := l_acc l = v6add (xform6lin (l_adj l) pa) (ab_c a).
(** The inertias of the breakable joints could be inverted. *)
Definition breakables_regular (c : achain F) : Prop := forall i l a, nth_error (c_links (ac_c c)) i = Some l -> nth_error (ac_a c) i = Some a ->
  breakable (l_joint l) -> forall v, mat_v6 (ab_axi a) (mat_v6 (ab_iaxi a) v) = v.
End BreakSpec.
