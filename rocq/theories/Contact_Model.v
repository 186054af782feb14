(** * Contact_Model: contact information, src/rk_contact.c and include/roki/rk_contact.h. *)
From Coq Require Import String List Arith Bool.
From Verif Require Import Num.
Import ListNotations.

Section Contact.
Context {F : Type} {N : Num F}.
Local Open Scope num_scope.

(** rkContactType, rk_contact.h 16. *)
Inductive ctype := CRigid | CElastic.
Definition ctype_eqb (a b : ctype) : bool := match a, b with CRigid, CRigid | CElastic, CElastic => true | _, _ => false end.
(** rkContactInfo, rk_contact.h 25-39.  The first members of the two structures of the union, compensation and
    elasticity, share their memory, as do relaxation and viscosity.  [None]: null key. *)
Record cinfo := CI { ci_s0 : option string; ci_s1 : option string; ci_type : ctype; ci_p0 : F; ci_p1 : F; ci_sf : F; ci_kf : F }.
(** rkContactInfoInit, rk_contact.h 80. *)
Definition cinfo_init : cinfo := CI None None CRigid 0 0 0 0.
(** rkContactInfoRigidCreate and rkContactInfoElasticCreate, rk_contact.c 15-38. *)
Definition rigid_create (k l sf kf : F) (s0 s1 : option string) : cinfo := CI s0 s1 CRigid k l sf kf.
Definition elastic_create (e v sf kf : F) (s0 s1 : option string) : cinfo := CI s0 s1 CElastic e v sf kf.

(** strcmp( a, b ) == 0 with a possibly null first argument: undefined then. *)
Definition str_is (a : option string) (b : string) : option bool := option_map (fun a => String.eqb a b) a.
(** a && b with undefined operands. *)
Definition and_then (a : option bool) (b : option bool) : option bool := match a with Some true => b | x => x end.
Definition or_else (a : option bool) (b : option bool) : option bool := match a with Some false => b | x => x end.
(** rkContactInfoAssoc, rk_contact.c 41-47. *)
Definition cinfo_assoc (c : cinfo) (s1 s2 : string) : option bool :=
  or_else (and_then (str_is (ci_s0 c) s1) (str_is (ci_s1 c) s2)) (and_then (str_is (ci_s0 c) s2) (str_is (ci_s1 c) s1)).

(** The first element of an array, from index i, on which a test holds; a test may be undefined. *)
Fixpoint find_from (i : nat) (t : cinfo -> option bool) (h : list cinfo) : option (option nat) :=
  match h with
  | [] => Some None
  | c :: r => match t c with None => None | Some true => Some (Some i) | Some false => find_from (S i) t r end
  end.
(** rkContactInfoArrayAssoc, rk_contact.c 144-153: the index of the element or [Some None] for the null pointer. *)
Definition carray_assoc (h : list cinfo) (s1 s2 : option string) : option (option nat) :=
  match s1, s2 with Some a, Some b => find_from 0 (fun c => cinfo_assoc c a b) h | _, _ => Some None end.
(** rkContactInfoArrayAssocType, rk_contact.c 156-166. *)
Definition carray_assoc_type (h : list cinfo) (s1 s2 : option string) (t : ctype) : option (option nat) :=
  match s1, s2 with
  | Some a, Some b => find_from 0 (fun c => and_then (Some (ctype_eqb (ci_type c) t)) (cinfo_assoc c a b)) h
  | _, _ => Some None
  end.

(** ** ZTK

    A [contact] section is a list of keys with their values; reading and printing of numbers and tokens is not modelled. *)
Inductive ckey := KBind (s0 s1 : string) | KStatic (x : F) | KKinetic (x : F) | KComp (x : F) | KRelax (x : F) | KElas (x : F) | KVisc (x : F).
(** rkContactInfoFPrintZTK, rk_contact.c 108-126. *)
Definition cinfo_print (c : cinfo) : option (list ckey) :=
  match ci_s0 c, ci_s1 c with
  | Some a, Some b =>
      Some (KBind a b :: (match ci_type c with CRigid => [KComp (ci_p0 c); KRelax (ci_p1 c)] | CElastic => [KElas (ci_p0 c); KVisc (ci_p1 c)] end)
            ++ [KStatic (ci_sf c); KKinetic (ci_kf c)])
  | _, _ => None
  end.
(** rkContactInfoArrayFPrintZTK, rk_contact.c 190-198. *)
Fixpoint carray_print (h : list cinfo) : option (list (list ckey)) :=
  match h with
  | [] => Some []
  | c :: r => match cinfo_print c, carray_print r with Some k, Some t => Some (k :: t) | _, _ => None end
  end.
Definition set_at (i : nat) (c : cinfo) (h : list cinfo) : list cinfo := firstn i h ++ c :: skipn (S i) h.
(** Evaluation of a key of section i, rk_contact.c 51-92.  The bool is true if a warning was printed (duplicate keys). *)
Definition key_eval (h : list cinfo) (i : nat) (k : ckey) : option (list cinfo * bool) :=
  match nth_error h i with
  | None => None
  | Some c =>
      match k with
      | KBind a b =>
          let h' := set_at i (CI (Some a) (Some b) (ci_type c) (ci_p0 c) (ci_p1 c) (ci_sf c) (ci_kf c)) h in
          match carray_assoc h' (Some a) (Some b) with
          | None => None
          | Some (Some j) => Some (h', negb (Nat.eqb j i))
          | Some None => Some (h', true)
          end
      | KStatic x => Some (set_at i (CI (ci_s0 c) (ci_s1 c) (ci_type c) (ci_p0 c) (ci_p1 c) x (ci_kf c)) h, false)
      | KKinetic x => Some (set_at i (CI (ci_s0 c) (ci_s1 c) (ci_type c) (ci_p0 c) (ci_p1 c) (ci_sf c) x) h, false)
      | KComp x => Some (set_at i (CI (ci_s0 c) (ci_s1 c) CRigid x (ci_p1 c) (ci_sf c) (ci_kf c)) h, false)
      | KRelax x => Some (set_at i (CI (ci_s0 c) (ci_s1 c) CRigid (ci_p0 c) x (ci_sf c) (ci_kf c)) h, false)
      | KElas x => Some (set_at i (CI (ci_s0 c) (ci_s1 c) CElastic x (ci_p1 c) (ci_sf c) (ci_kf c)) h, false)
      | KVisc x => Some (set_at i (CI (ci_s0 c) (ci_s1 c) CElastic (ci_p0 c) x (ci_sf c) (ci_kf c)) h, false)
      end
  end.
(** _rkContactInfoFromZTK, rk_contact.c 101-105, the keys in the order of the file. *)
Fixpoint keys_eval (h : list cinfo) (i : nat) (ks : list ckey) (w : nat) : option (list cinfo * nat) :=
  match ks with
  | [] => Some (h, w)
  | k :: r => match key_eval h i k with None => None | Some (h', b) => keys_eval h' i r (if b then S w else w) end
  end.
Fixpoint sections_eval (h : list cinfo) (i : nat) (f : list (list ckey)) (w : nat) : option (list cinfo * nat) :=
  match f with
  | [] => Some (h, w)
  | ks :: r => match keys_eval h i ks w with None => None | Some (h', w') => sections_eval h' (S i) r w' end
  end.
(** rkContactInfoArrayFromZTK, rk_contact.c 175-188: the array and the number of warnings for duplicate keys;
    [Some None]: the null pointer, for a file without sections. *)
Definition carray_read (f : list (list ckey)) : option (option (list cinfo * nat)) :=
  match f with
  | [] => Some None
  | _ => option_map Some (sections_eval (repeat cinfo_init (List.length f)) 0 f 0)
  end.

(** ** Files *)

(** Files by name. *)
Definition files := string -> option (list (list ckey)).
Definition file_put (fs : files) (n : string) (f : list (list ckey)) : files := fun m => if String.eqb m n then Some f else fs m.
(** rkContactInfoArrayWriteZTK, rk_contact.c 213-221: [buf] is what the uninitialised array name[] holds; the argument
    filename is not used. *)
Definition carray_write (buf : string) (fs : files) (h : list cinfo) (filename : string) : option files :=
  option_map (file_put fs buf) (carray_print h).
(** rkContactInfoArrayReadZTK, rk_contact.c 201-210. *)
Definition carray_read_file (fs : files) (filename : string) : option (option (list cinfo * nat)) :=
  match fs filename with None => Some None | Some f => carray_read f end.
End Contact.
Arguments cinfo : clear implicits. Arguments ckey : clear implicits. Arguments files : clear implicits.
