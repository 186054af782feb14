(** * Tools_Model: rk_ground (/repo/app/rk_ground.c) and ikcell_merge (/repo/app/rk_ikcell_merge.c).

    [None]: undefined behaviour, or a number that is none. *)
From Coq Require Import Bool String List Arith.
From Verif Require Import Num Vec Motor_Model Joint_Model Body_Model Conf_Model Contact_Model.
Import ListNotations.
Set Implicit Arguments.

Section Tools.
Context {F : Type} {N : Num F} {E : Ext F} {K : ConfExt F}.
Local Open Scope num_scope.

(** ** rk_ground *)
(** What the program does: usage and exit status 0, error message and exit status 1, a contact section. *)
Inductive ground := GUsage | GRigid | GSection (ks : list (ckey F)).
(** main, rk_ground.c 14-38.  The arguments are the numbers atof reads from argv[1] on; [g] is RK_G; [null] is what %s makes
    of a null pointer (nothing defined by the C standard; some libraries print a text).  Line 20 asks for four arguments, but
    line 25 reads the fifth: argv[5] is then the null pointer. *)
Definition rk_ground (g : F) (null : option string) (args : list F) : option ground :=
  match args with
  | mass :: depth :: zeta :: ms :: mu :: _ =>
      if ntiny x_tol depth then Some GRigid
      else let k := mass * g / depth in
           if nltb (k * mass) 0 then None
           else let c := (1 + 1) * zeta * x_sqrt (k * mass) in
                option_map GSection (cinfo_print (elastic_create k c ms mu null null))
  | [_; _; _; _] => None
  | _ => Some GUsage
  end.

(** ** ikcell_merge *)
(** Files are the numbers in them.  [as_int] is zFInt on a number: the integer it reads, if the number is a (non-negative)
    integer; other numbers, and the end of the file in the middle of a record, are outside the model. *)
Context (as_int : F -> option nat) (of_nat : nat -> F).
Definition rd_int (l : list F) : option (nat * list F) :=
  match l with [] => None | x :: t => option_map (fun n => (n, t)) (as_int x) end.
(** The inner loop of ikcell_merge_exec, rk_ikcell_merge.c 55-62, for one file: the numbers printed and the rest of the file. *)
Fixpoint copy_entries (n : nat) (l : list F) : option (list F * list F) :=
  match n with
  | O => Some ([], l)
  | S k => match rd_int l with
           | Some (e, w :: v0 :: v1 :: v2 :: t) => option_map (fun '(o, r) => (of_nat e :: w :: v0 :: v1 :: v2 :: o, r)) (copy_entries k t)
           | _ => None
           end
  end.
(** The first inner loop, 48-52: [Some None] when a file is at its end. *)
Fixpoint heads (fs : list (list F)) : option (option (list (nat * list F))) :=
  match fs with
  | [] => Some (Some [])
  | [] :: _ => Some None
  | f :: fs' => match rd_int f, heads fs' with
                | Some h, Some (Some t) => Some (Some (h :: t))
                | Some h, r => r
                | None, _ => None
                end
  end.
Fixpoint copy_all (hs : list (nat * list F)) : option (list F * list (list F)) :=
  match hs with
  | [] => Some ([], [])
  | (n, l) :: t => match copy_entries n l with
                   | None => None
                   | Some (o, r) => option_map (fun '(o', rs) => (o ++ o', r :: rs)) (copy_all t)
                   end
  end.
(** ikcell_merge_exec, rk_ikcell_merge.c 40-65: the lines printed.  [fuel] bounds the number of rounds. *)
Fixpoint merge_exec (fuel : nat) (fs : list (list F)) : option (list (list F)) :=
  match fuel with
  | O => None
  | S k => match heads fs with
           | None => None
           | Some None => Some []
           | Some (Some hs) => match copy_all hs with
                               | None => None
                               | Some (o, rs) => option_map (cons (of_nat (list_sum (map fst hs)) :: o)) (merge_exec k rs)
                               end
           end
  end.
End Tools.
Arguments ground : clear implicits.
