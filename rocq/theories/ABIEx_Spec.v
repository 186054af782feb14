(** * ABIEx_Spec: what the properties of additional forces talk about. *)
From Coq Require Import List Arith.
From Verif Require Import Num Vec Joint_Model Body_Model Link_Model ABI_Model.
Import ListNotations.

Section S.
Context {F : Type} {N : Num F} {E : Ext F} {MI : MInv F}.

(** The wrench lists of the links (rkABIPrp member wlist) replaced by [ws]. *)
Definition load (ws : list (wlist F)) (c : achain F) : achain F :=
  AC (ac_c c) (map (fun x => ab_set_wl (snd x) (fst x)) (combine (ac_a c) ws)) (ac_br c).
(** The wrenches [ws] acting besides those already in the lists; the lists emptied. *)
Definition more (ws : list (wlist F)) (c : achain F) : achain F :=
  AC (ac_c c) (map (fun x : abi F * wlist F => ab_set_wl (snd x ++ ab_wl (fst x)) (fst x)) (combine (ac_a c) ws)) (ac_br c).
Definition unload (c : achain F) : achain F := load (map (fun _ => []) (ac_a c)) c.
Definition quiet (c : achain F) : Prop := Forall (fun a => ab_wl a = []) (ac_a c).
Definition biases (c : achain F) : list (vec6 F) := map ab_b (ac_a c).
Definition accs (c : achain F) : list (vec6 F) := map l_acc (c_links (ac_c c)).
Definition inertias (c : achain F) : list (mat6 F) := map ab_i (ac_a c).
(** A trial force: a link and a wrench; the second one goes on top of the first if both act on one link. *)
Definition force : Type := option (nat * wrench F).
Definition forces_on (x x2 : force) (i : nat) : wlist F :=
  match x2 with Some (j, w) => if Nat.eqb i j then [w] else [] | None => [] end ++
  match x with Some (j, w) => if Nat.eqb i j then [w] else [] | None => [] end.
Definition more_two (x x2 : force) (c : achain F) : achain F := more (map (forces_on x x2) (seq 0 (length (ac_a c)))) c.
Definition on_chain (c : achain F) (x : force) : Prop := match x with Some (i, _) => i < length (ac_a c) | None => True end.

(** Trying forces on a chain whose state has been pushed, and taking the state back: one or two forces with
    rkChainABIUpdateAddExForceTwo and rkChainABIPopPrpAccBiasAddExForceTwo, or any wrench lists with
    rkChainABIUpdateAddExForce and rkChainABIPopPrpAccBias, the lists being emptied afterwards. *)
Inductive trial := Two (x x2 : force) | Full (ws : list (wlist F)).
Definition evaluate (c : achain F) (t : trial) : option (achain F) :=
  match t with Two x x2 => chain_abi_ex_two c x x2 | Full ws => chain_abi_ex (load ws c) end.
Definition take_back (t : trial) (c : achain F) : option (achain F) :=
  match t with
  | Two x x2 => chain_abi_pop_two c (option_map fst x) (option_map fst x2)
  | Full ws => Some (load (map (fun _ => []) ws) (chain_abi_pop c))
  end.
Fixpoint run_trials (c : achain F) (ts : list trial) : option (achain F) :=
  match ts with [] => Some c | t :: ts => obind (evaluate c t) (fun c => obind (take_back t c) (fun c => run_trials c ts)) end.
Definition trial_ok (c : achain F) (t : trial) : Prop :=
  match t with Two x x2 => on_chain c x /\ on_chain c x2 | Full ws => length ws = length (ac_a c) end.
(** The chain with the forces of the trial from the beginning, besides those that were there. *)
Definition under (t : trial) (c : achain F) : achain F := match t with Two x x2 => more_two x x2 c | Full ws => more ws c end.
End S.
Arguments trial : clear implicits.
