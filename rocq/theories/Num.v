(** * Num: the scalar domain of the model.

    C [double] is modelled by an arbitrary ordered field (class [Num] for the
    operations, [NumLaws] for the laws).  Instances: the reals [R] and the
    canonical rationals [Qc] (executable).  Rounding, overflow and NaN are not
    modelled (see DESIGN.md). *)

From Coq Require Import Bool Ring Field QArith Qcanon Reals Lra.

Class Num (F : Type) := mkNum {
  n0 : F;  n1 : F;
  nadd : F -> F -> F;  nmul : F -> F -> F;  nsub : F -> F -> F;  nopp : F -> F;
  ndiv : F -> F -> F;  ninv : F -> F;
  nleb : F -> F -> bool
}.

Declare Scope num_scope.
Delimit Scope num_scope with num.
Notation "0" := n0 : num_scope.
Notation "1" := n1 : num_scope.
Infix "+" := nadd : num_scope.
Infix "*" := nmul : num_scope.
Infix "-" := nsub : num_scope.
Notation "- x" := (nopp x) : num_scope.
Infix "/" := ndiv : num_scope.
Infix "<=?" := nleb : num_scope.

Class NumLaws (F : Type) (N : Num F) : Prop := mkNumLaws {
  num_field : field_theory n0 n1 nadd nmul nsub nopp ndiv ninv (@eq F);
  nleb_total : forall x y, nleb x y = true \/ nleb y x = true;
  nleb_antisym : forall x y, nleb x y = true -> nleb y x = true -> x = y;
  nleb_trans : forall x y z, nleb x y = true -> nleb y z = true -> nleb x z = true;
  nleb_add : forall x y z, nleb x y = true -> nleb (nadd x z) (nadd y z) = true;
  nleb_mul : forall x y, nleb n0 x = true -> nleb n0 y = true -> nleb n0 (nmul x y) = true
}.

(** Propositional order. *)
Definition nle {F} {N : Num F} (x y : F) : Prop := nleb x y = true.
Definition nlt {F} {N : Num F} (x y : F) : Prop := nleb y x = false.
Infix "<=" := nle : num_scope.
Infix "<" := nlt : num_scope.

(** C [x < y] on doubles (boolean). *)
Definition nltb {F} {N : Num F} (x y : F) : bool := negb (nleb y x).

(** zSgn(x) of ZM: -1, 0 or 1. *)
Definition nsgn {F} {N : Num F} (x : F) : F :=
  (if nltb 0 x then 1 else if nltb x 0 then - (1) else 0)%num.

(** fabs. *)
Definition nabs {F} {N : Num F} (x : F) : F := (if 0 <=? x then x else - x)%num.

(** zIsTol / zIsTiny of ZM: |x| below a tolerance. *)
Definition ntiny {F} {N : Num F} (tol x : F) : bool := nltb (nabs x) tol.

(** The numeral 2, used by the Coriolis terms. *)
Definition n2 {F} {N : Num F} : F := (1 + 1)%num.

(** Numerals and decimal constants: [nrat p q] is p/q. *)
Fixpoint npos {F} {N : Num F} (p : positive) : F :=
  match p with
  | xH => 1
  | xO q => n2 * npos q
  | xI q => 1 + n2 * npos q
  end%num.
Definition nZ {F} {N : Num F} (z : Z) : F :=
  match z with Z0 => 0 | Zpos p => npos p | Zneg p => - npos p end%num.
Definition nrat {F} {N : Num F} (p : Z) (q : positive) : F := (nZ p / npos q)%num.

(** zLimit(v,min,max) of ZM; an infinite limit is [None]. *)
Definition clamp {F} {N : Num F} (v : F) (lo hi : option F) : F :=
  let a := match lo with Some l => if nltb v l then l else v | None => v end in
  match hi with Some h => if nltb h a then h else a | None => a end.

(** Interval membership with possibly infinite ends (specification). *)
Definition within {F} {N : Num F} (lo hi : option F) (x : F) : Prop :=
  match lo with Some l => nle l x | None => True end /\
  match hi with Some h => nle x h | None => True end.

Definition limits_ok {F} {N : Num F} (lo hi : option F) : Prop :=
  match lo, hi with Some l, Some h => nle l h | _, _ => True end.

(** ** Instances *)

Definition Rleb (x y : R) : bool := if Rle_dec x y then true else false.

#[export] Instance Num_R : Num R :=
  {| n0 := 0%R; n1 := 1%R; nadd := Rplus; nmul := Rmult; nsub := Rminus;
     nopp := Ropp; ndiv := Rdiv; ninv := Rinv; nleb := Rleb |}.

Definition Qcleb (x y : Qc) : bool := Qle_bool (this x) (this y).

#[export] Instance Num_Qc : Num Qc :=
  {| n0 := 0%Qc; n1 := 1%Qc; nadd := Qcplus; nmul := Qcmult; nsub := Qcminus;
     nopp := Qcopp; ndiv := Qcdiv; ninv := Qcinv; nleb := Qcleb |}.
