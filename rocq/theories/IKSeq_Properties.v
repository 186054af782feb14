(** * IKSeq_Properties: applying an entry of an inverse kinematics sequence (C67). *)
From Coq Require Import String ZArith QArith Qcanon List Arith Lia Bool Sorted.
From Verif Require Import Num NumFacts Vec VecFacts Motor_Model Joint_Model ExtQ Body_Model Tree Link_Model Link_Properties Jacobi_Model Kin_Properties IK_Model IK_Laws IK_Gauss IK_Spec IK_Cells IKCell_Properties.
Import ListNotations.

Section Thms.
Context {F : Type} {N : Num F} {E : Ext F} {I : IKExt F}.
(** The last entry for a cell identifier. *)
Definition last_for (id : nat) (l : list (entry F)) : option (entry F) := find (fun e => Nat.eqb (e_id e) id) (rev l).
(** A cell that follows an entry: all axes on, its weight and reference those of the entry; the reference of an
    attitude cell is given by angles about z, y and x.  Nothing else of the cell changes. *)
Definition followed (e : entry F) (ce : cell F) : cell F :=
  let a := ce_attr ce in let angular := match ce_kind ce with WldAtt | L2LAtt => true | _ => false end in
  Cell (ce_id ce) (ce_kind ce) (Attr (a_id a) (a_sub a) (a_ap a) (e_w e)) (Mode true true true (m_force (ce_mode ce)))
    (if angular then ce_pos ce else e_val e)
    (if angular then m3zyx (vx (e_val e)) (vy (e_val e)) (vz (e_val e)) else ce_att ce) (ce_ae ce) (ce_eval ce).
Definition follows (l : list (entry F)) (ce : cell F) : cell F := match last_for (ce_id ce) l with Some e => followed e ce | None => ce end.

Lemma set_ref_followed e ce : cell_set_ref (e_val e) (ce_set_w (e_w e) ce) = followed e ce.
Proof. destruct ce as [i [] a m p t q v]; reflexivity. Qed.
Lemma followed_twice e e' ce : followed e (followed e' ce) = followed e ce.
Proof. destruct ce as [i [] a m p t q v]; reflexivity. Qed.
Lemma follows_snoc l e ce : follows (l ++ [e]) ce = if Nat.eqb (e_id e) (ce_id ce) then followed e (follows l ce) else follows l ce.
Proof.
  unfold follows, last_for. rewrite rev_app_distr. cbn [rev app find]. destruct (Nat.eqb (e_id e) (ce_id ce)); [|reflexivity].
  destruct (find _ (rev l)); [rewrite followed_twice|]; reflexivity.
Qed.
Lemma follows_id l ce : ce_id (follows l ce) = ce_id ce.
Proof. unfold follows. destruct (last_for _ _); reflexivity. Qed.
Lemma seq_entry_map (s : solver F) e : cells_ok (s_cells s) ->
  seq_entry s e = s_set_cells (map (fun x => (fst x, if Nat.eqb (e_id e) (ce_id (snd x)) then followed e (snd x) else snd x)) (s_cells s)) s.
Proof.
  intros OK. unfold seq_entry.
  assert (G : forall (f : nat * cell F -> nat * cell F), (forall x, In x (s_cells s) -> f x = x) -> s = s_set_cells (map f (s_cells s)) s).
  { intros f H. rewrite (map_ext_in f (fun x => x)), map_id by exact H. destruct s; reflexivity. }
  destruct (find_cell (s_cells s) (e_id e)) as [a|] eqn:Fd.
  - pose proof (proj1 (find_cell_spec _ _ _ OK) Fd) as (ce & IN & ID). unfold on_cell. f_equal. apply map_ext_in. intros [b x] X. cbn [fst snd].
    rewrite set_ref_followed. destruct OK as [S D].
    destruct (Nat.eqb_spec b a) as [->|NE].
    + assert (x = ce) as ->.
      { clear - D IN X. induction (s_cells s) as [|[b y] l IH]; [contradiction|]. cbn [cadr map fst] in D. inversion D as [|? ? NI D']; subst.
        destruct IN as [IN|IN], X as [X|X]; try congruence; auto; exfalso; apply NI; [injection IN as -> ->|injection X as -> ->];
          match goal with H : In (a, ?z) l |- _ => exact (in_map fst _ _ H) end. }
      rewrite ID, Nat.eqb_refl. reflexivity.
    + destruct (Nat.eqb_spec (e_id e) (ce_id x)) as [Q|Q]; [|reflexivity]. exfalso. apply NE.
      assert (H : find_cell (s_cells s) (e_id e) = Some b) by (apply find_cell_spec; [split; assumption|]; exists x; auto). congruence.
  - apply G. intros [b x] X. cbn [fst snd]. destruct (Nat.eqb_spec (e_id e) (ce_id x)) as [Q|Q]; [|reflexivity]. exfalso.
    assert (H : find_cell (s_cells s) (e_id e) = Some b) by (apply find_cell_spec; [exact OK|]; exists x; auto). congruence.
Qed.
(** The cells named by the sequence entry follow the last of its items for them; all other cells, and the rest of
    the solver, are as before.  Items for cells that do not exist have no effect. *)
Theorem C67_sequence : forall (c c' : chain F) (s : solver F) ops q, run c (ik_create c) ops = Some (c', s) ->
  run_op c' s (SetSeq q) = Some (c', s_set_cells (map (fun x => (fst x, follows (sq_entries q) (snd x))) (s_cells s)) s).
Proof.
  intros c c' s ops q H. apply run_cells in H; [|apply create_cells]. cbn [run_op option_map]. do 2 f_equal. unfold seq_set. generalize (sq_entries q). clear q.
  intros l. induction l as [|e l IH] using rev_ind.
  - cbn. unfold follows, last_for. cbn. rewrite (map_ext _ (fun x => x)), map_id; [destruct s; reflexivity|]. intros [a x]. reflexivity.
  - rewrite fold_left_app. cbn [fold_left]. rewrite IH, seq_entry_map.
    + cbn [s_cells s_set_cells]. rewrite map_map. unfold s_set_cells. cbn [s_sw s_weight s_vel s_eval s_cells s_jidx s_jofs s_jvel s_wn s_cmat s_csrv s_cwe s_rows].
      f_equal. apply map_ext. intros [a x]. cbn [fst snd]. rewrite follows_snoc, follows_id. reflexivity.
    + cbn [s_cells s_set_cells]. eapply same_cells_ok; [|exact H]. apply same_cells_map. intros x. cbn [fst snd]. split; [reflexivity|apply follows_id].
Qed.
End Thms.

(** ** A concrete case *)
(** Three items: two for cell 1, of which the second counts, and one for a cell that does not exist. *)
Definition two_items : seqcell Qc := SeqCell (qz 1)
  [Entry 1 (V3 (qz 1) (qz 1) (qz 1)) (V3 (qz 5) (qz 5) (qz 5)); Entry 7 (V3 (qz 1) (qz 1) (qz 1)) (V3 (qz 9) (qz 9) (qz 9));
   Entry 1 (V3 (qz 4) (qz 5) (qz 6)) (V3 (qz 7) (qz 8) (qz 9))].
Definition cell_refs (x : nat * cell Qc) : list Qc := l3 (a_w (ce_attr (snd x))) ++ l3 (ce_pos (snd x)) ++ [if m_y (ce_mode (snd x)) then qz 1 else qz 0].
Example C67_ex : exists r, run mech (ik_create mech) [JReg 1 (qz 1); CReg 10 WldPos (at_ 4 0) full; CReg 11 COM None full; SetSeq two_items] = Some r /\
  map cell_refs (s_cells (snd r)) = zq [[1; 2; 3; 0; 0; 0; 0]; [4; 5; 6; 7; 8; 9; 1]]%Z.
Proof. apply (some_exq _ (fun r : chain Qc * solver Qc => map cell_refs (s_cells (snd r)))). vm_compute. reflexivity. Qed.

Print Assumptions C67_sequence.
