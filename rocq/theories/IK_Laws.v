(** * IK_Laws: what is assumed of the linear equation solver used by the inverse kinematics solver. *)
From Coq Require Import List Arith.
From Verif Require Import Num Vec Motor_Model Joint_Model Body_Model Tree Link_Model Jacobi_Model IK_Model.
Import ListNotations.

Section Laws.
Context {F : Type} {N : Num F}.
Definition mat_vec (a : list (list F)) (x : list F) : list F := map (fun r => dot r x) a.
Definition square (n : nat) (a : list (list F)) : Prop := length a = n /\ Forall (fun r => length r = n) a.
(** zLESolveGaussDST (ZM): a result solves the equation, and there is one when the matrix is regular. *)
Record le_laws (le : list (list F) -> list F -> option (list F)) : Prop := {
  le_sound : forall n a b x, square n a -> length b = n -> le a b = Some x -> length x = n /\ mat_vec a x = b;
  le_total : forall n a b, square n a -> length b = n ->
    (forall x, length x = n -> mat_vec a x = zeros n -> x = zeros n) -> le a b <> None }.
End Laws.
