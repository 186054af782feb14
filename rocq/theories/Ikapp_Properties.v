(** * Ikapp_Properties: what rk_ik prints along a sequence (C92). *)
From Coq Require Import String ZArith QArith Qcanon List Arith Lia Bool Field.
From Verif Require Import Num NumFacts Vec VecFacts Motor_Model Joint_Model Joint_Spec Joint_Proofs ExtQ Body_Model Tree Tree_Proofs Link_Model Link_Spec Link_Properties Chain_Proofs Chain_Properties Jacobi_Model Kin_Spec Kin_Proofs Kin_Properties Jacobi_Proofs
  IK_Model IK_Laws IK_Gauss IK_Spec IK_Cells IK_Index IK_Dims IK_Rows IK_Usable IKCell_Properties IKSeq_Properties IKRow_Properties IKSolve_Properties Ztk_Model IKConf_Model IKConf_Spec IKConf_Proofs IKConf_Properties
  Ikapp_Model Ikapp_Spec Ikapp_Proofs Ikapp_Hold Ikapp_Lines.
Import ListNotations.

Section Thms.
Context {F : Type} {N : Num F} {L : NumLaws F N} {E : Ext F} {X : ExtLaws F N E} {I : IKExt F}.
Notation registered c ops := (asked_all (List.length (c_links c)) (movable c) ops).

(** The program prints a line for every step of the sequence: its time step and the joint displacements in the posture reached by
    the calls for this and all earlier steps.  With at least one iteration the joints are within their limits. *)
Theorem C92_lines : forall (c : chain F) ops c1 (s : solver F) tol iter q, le_laws x_le -> prepared c ops c1 s -> weighted q ->
  exists rows, rk_ik_solve tol iter c1 s (repeat 0%num (chain_joint_size c)) q = Some rows /\ List.length rows = List.length q /\
  forall k e, nth_error q k = Some e -> exists ck sk, nth_error rows k = Some (sq_dt e, displacements ck) /\
    run c1 s (flat_map (calls (chain_joint_size c) tol iter) (firstn (S k) q)) = Some (ck, sk) /\ posed ck /\ ((0 < budget iter)%nat -> respects c1 ck).
Proof.
  intros c ops c1 s tol iter q LE P We. pose proof (prepared_ok c ops c1 s LE P) as G. destruct P as (U & _ & _ & _ & _ & _ & W & Wj & _).
  destruct (lines_total c LE (proj1 (proj2 U)) tol iter q ops c1 s (repeat 0%num (chain_joint_size c)) W Wj G (repeat_length _ _) We) as (rows & A & B & D). exists rows. split; [exact A|]. split; [exact B|].
  intros k e Hk. destruct (D k e Hk) as (ck & sk & D1 & D2 & D3 & D4). exists ck, sk. split; [exact D1|]. split; [exact D2|]. split; [apply D3|exact D4].
Qed.
(** The targets in each step. *)
Theorem C92_targets : forall (c : chain F) ops c1 (s : solver F) tol iter q k e ck sk sb, le_laws x_le -> (forall m : mat3 F, rotation m -> x_m3err m m = v3zero) ->
  prepared c ops c1 s -> weighted q -> nth_error q k = Some e ->
  run c1 s (flat_map (calls (chain_joint_size c) tol iter) (firstn k q)) = Some (ck, sk) -> run ck sk [Deactivate; Bind; SetSeq e] = Some (ck, sb) ->
  Forall2 (fun x y => fst y = fst x /\ aimed ck (entries (firstn k q)) (sq_entries e) (snd x) (snd y)) (s_cells s) (s_cells sb).
Proof.
  intros c ops c1 s tol iter q k e ck sk sb LE ERR P We Hk R1 R2. pose proof (prepared_ok c ops c1 s LE P) as G. destruct P as (U & _ & _ & _ & _ & _ & W & Wj & _).
  exact (lines_aimed c LE (proj1 (proj2 U)) ERR tol iter q ops c1 s [] (s_cells s) W Wj G We (helds_refl _) k e ck sk sb Hk R1 R2).
Qed.
(** A step that names no cell repeats the displacements of the line before, or those of the chain if it is the first. *)
Theorem C92_hold : forall (c : chain F) ops c1 (s : solver F) tol iter q rows k e, le_laws x_le -> (forall m : mat3 F, rotation m -> x_m3err m m = v3zero) ->
  prepared c ops c1 s -> unit_turns c1 -> weighted q -> rk_ik_solve tol iter c1 s (repeat 0%num (chain_joint_size c)) q = Some rows ->
  nth_error q k = Some e -> unnamed s e ->
  nth_error rows k = option_map (pair (sq_dt e)) match k with 0 => Some (displacements c1) | S m => option_map snd (nth_error rows m) end%nat.
Proof.
  intros c ops c1 s tol iter q rows k e LE ERR P T We H Hk Un. pose proof (prepared_ok c ops c1 s LE P) as G. destruct P as (U & _ & _ & _ & _ & _ & W & Wj & _).
  exact (lines_hold c LE (proj1 (proj2 U)) ERR tol iter q ops c1 s (repeat 0%num (chain_joint_size c)) rows W Wj T G (repeat_length _ _) We H k e Hk Un).
Qed.
(** Calls that set up the joints and cells prepare the solver. *)
Theorem C92_prepared : forall (c : chain F) ops c1 (s : solver F), usable c -> all_ordered c -> settable c -> forallb setup ops = true -> run c (ik_create c) ops = Some (c1, s) ->
  posed c \/ existsb poses ops = true -> wanted c (registered c ops) <> [] -> (forall i w, In i (wanted c (registered c ops)) -> registered c ops i = Some w -> (0 < w)%num) ->
  (forall x, In x (s_cells s) -> plain (List.length (c_links c)) (snd x)) -> prepared c ops c1 s.
Proof.
  intros c ops c1 s U O S Q R Po W Wj K. destruct (setup_keeps ops c _ c1 s U O (settable_steady c U O S) Q R) as (A1 & A2 & A3). destruct (run_usable ops c _ c1 s U R) as [U1 P1].
  split; [exact U|]. split; [exact R|]. split; [exact (P1 Po)|]. split; [exact A1|]. split; [apply set_chain_same; assumption|]. split; [exact A3|]. auto.
Qed.

(** ** Configuration files *)
Context {Z : ZtkLib}.
Lemma key_vel junk (x : conf F) k y ok : ik_key junk x k = Some (y, ok) -> s_vel (snd y) = s_vel (snd x).
Proof.
  destruct x as [c v]. destruct k as [n w d|t l]; cbn [ik_key].
  - unfold ik_joint. destruct (String.eqb n "all"%string).
    + destruct (joint_reg_all c v _) as [[v' b]|] eqn:A; [|discriminate]. intros H; injection H as <- _. eapply reg_all_vel; exact A.
    + destruct (find_name _ _) as [i|]; [|intros H; injection H as <- _; reflexivity]. unfold obind. destruct (nth_error (c_links c) i) as [l|]; [|discriminate]. destruct (is0 _).
      * intros H. assert (G : forall o : option (joint F * bool), option_map (fun '(j', _) => ((c_set_links (lset i (l_set_joint j' l) (c_links c)) c, v), true)) o = Some (y, ok) -> s_vel (snd y) = s_vel v)
          by (intros [[j b]|] Q; [injection Q as <- _; reflexivity|discriminate]).
        destruct (l_joint l); try discriminate H; exact (G _ H).
      * destruct (Nat.eqb _ 0); [intros H; injection H as <- _; reflexivity|]. destruct (joint_reg c v i _) as [[v' b]|] eqn:A; [|discriminate]. intros H; injection H as <- _. eapply reg_sw_vel; exact A.
  - unfold ik_constraint. destruct (ik_lookup _ _); [|intros H; injection H as <- _; reflexivity]. destruct (ik_items _ _ _ _ _) as [[a m]|]; [|intros H; injection H as <- _; reflexivity].
    destruct (cell_reg _ _ _ _ _) as [v'|] eqn:A; [|discriminate]. intros H; injection H as <- _. apply alloc_srv_vel in A. exact A.
Qed.
Lemma keys_vel junk l : forall (x y : conf F) ok, ik_keys junk x l = Some (y, ok) -> s_vel (snd y) = s_vel (snd x).
Proof.
  induction l as [|k l IH]; cbn [ik_keys]; intros x y ok H; [injection H as <- _; reflexivity|]. unfold obind in H. destruct (ik_key junk x k) as [[z b]|] eqn:A; [|discriminate].
  rewrite <- (key_vel _ _ _ _ _ A). destruct b; [eauto|]. destruct z_stop_key; [injection H as <- _; reflexivity|]. destruct (ik_keys junk z l) as [[z' b']|] eqn:B; [|discriminate]. injection H as <- _. eauto.
Qed.
(** A constraint that rk_ik can hold: not forced, without negative weights, on a position or an attitude. *)
Definition holdable (x : string * list (citem F)) : Prop :=
  forced (snd x) = false /\ (forall w ax, In w (cweights (snd x)) -> (0 <= comp ax w)%num) /\ ~ In (fst x) ["am"; "amcom"]%string.
Lemma described_plain (c : chain F) n x y : (0 < List.length (c_links c))%nat -> holdable x -> described c n x y -> plain (List.length (c_links c)) (snd y).
Proof.
  intros NE (H1 & H2 & H3) (D1 & D2 & D3 & D4 & D5 & D6 & D7). split; [rewrite D7; exact H1|].
  assert (Nl : forall i n, nth_error (names c) i = Some n -> (i < List.length (c_links c))%nat).
  { intros i m Q. assert (i < List.length (names c))%nat by (apply nth_error_Some; congruence). unfold names in *. now rewrite map_length in *. }
  assert (A1 : (a_id (ce_attr (snd y)) < List.length (c_links c))%nat) by (destruct (link_names (snd x)); [rewrite D3; exact NE|eauto]).
  assert (A2 : (a_sub (ce_attr (snd y)) < List.length (c_links c))%nat) by (destruct (rev _); [rewrite D4; exact NE|eauto]).
  split; [unfold valid; destruct (ce_kind (snd y)); auto|]. split.
  - intros ax. rewrite D6.
    assert (K : forall (l : list (vec3 F)) d, In (last l d) (d :: l)).
    { induction l as [|a l IH]; intros d; [now left|]. destruct l as [|b l]; [right; now left|]. change (last (a :: b :: l) d) with (last (b :: l) d). destruct (IH d) as [Q|Q]; [left; exact Q|right; right; exact Q]. }
    destruct (K (cweights (snd x)) (V3 1 1 1)%num) as [Q|Q]; [rewrite <- Q; destruct ax; cbn; apply nle_0_1|eauto].
  - unfold bindable. destruct (ce_kind (snd y)); cbn in D2; auto; apply H3; rewrite <- D2; cbn; auto.
Qed.
Lemma key_links junk (x : conf F) k y ok : ik_key junk x k = Some (y, ok) -> fst y = c_set_links (c_links (fst y)) (fst x).
Proof.
  assert (Z0 : forall c : chain F, c = c_set_links (c_links c) c) by now intros [].
  destruct x as [c v]. destruct k as [n w d|t l]; cbn [ik_key fst].
  - unfold ik_joint. destruct (String.eqb n "all"%string).
    + destruct (joint_reg_all c v _) as [[v' b]|] eqn:A; [|discriminate]. intros H; injection H as <- _. apply Z0.
    + destruct (find_name _ _) as [i|]; [|intros H; injection H as <- _; apply Z0]. unfold obind. destruct (nth_error (c_links c) i) as [l|]; [|discriminate]. destruct (is0 _).
      * intros H. assert (G : forall o : option (joint F * bool), option_map (fun '(j', _) => ((c_set_links (lset i (l_set_joint j' l) (c_links c)) c, v), true)) o = Some (y, ok) -> fst y = c_set_links (c_links (fst y)) c)
          by (intros [[j b]|] Q; [injection Q as <- _; destruct c; reflexivity|discriminate]).
        destruct (l_joint l); try discriminate H; exact (G _ H).
      * destruct (Nat.eqb _ 0); [intros H; injection H as <- _; apply Z0|]. destruct (joint_reg c v i _) as [[v' b]|] eqn:A; [|discriminate]. intros H; injection H as <- _. apply Z0.
  - unfold ik_constraint. destruct (ik_lookup _ _); [|intros H; injection H as <- _; apply Z0]. destruct (ik_items _ _ _ _ _) as [[a m]|]; [|intros H; injection H as <- _; apply Z0].
    destruct (cell_reg _ _ _ _ _) as [v'|] eqn:A; [|discriminate]. intros H; injection H as <- _. apply Z0.
Qed.
Lemma keys_links junk l : forall (x y : conf F) ok, ik_keys junk x l = Some (y, ok) -> fst y = c_set_links (c_links (fst y)) (fst x).
Proof.
  assert (Z1 : forall a b c : chain F, b = c_set_links (c_links b) a -> c = c_set_links (c_links c) b -> c = c_set_links (c_links c) a) by (intros [] [] [] A B; unfold c_set_links in *; cbn in *; injection A; injection B; intros; subst; reflexivity).
  induction l as [|k l IH]; cbn [ik_keys]; intros x y ok H; [injection H as <- _; now destruct (fst x)|]. unfold obind in H. destruct (ik_key junk x k) as [[z b]|] eqn:A; [|discriminate].
  pose proof (key_links _ _ _ _ _ A) as B. destruct b; [eauto|]. destruct z_stop_key; [injection H as <- _; exact B|]. destruct (ik_keys junk z l) as [[z' b']|] eqn:D; [|discriminate]. injection H as <- _. eauto.
Qed.
Lemma wanted_eq (c : chain F) f g : (forall i, movable c i = true -> f i = g i) -> wanted c f = wanted c g.
Proof. intros H. unfold wanted. apply filter_ext. intros i. destruct (movable c i) eqn:M; [now rewrite (H i M)|reflexivity]. Qed.

Lemma f2_in_r {A B} (R : A -> B -> Prop) l h : Forall2 R l h -> forall y, In y h -> exists x, In x l /\ R x y.
Proof. induction 1 as [|x y l h Q H IH]; intros z; [intros []|]. intros [<-|Hz]; [exists x; split; [now left|exact Q]|]. destruct (IH z Hz) as (x' & Q1 & Q2). exists x'. split; [now right|exact Q2]. Qed.
(** A configuration file without initial postures, whose constraints can be held, prepares the solver for the program. *)
Theorem C92_configured : forall junk (c : chain F) l tol iter q, le_laws x_le -> NoDup (names c) -> readable c l -> (forall n, In n (names c) -> fixed_at n l = None) ->
  usable c -> posed c -> all_ordered c -> settable c -> (0 < List.length (c_links c))%nat -> wanted c (asked_by c l) <> [] ->
  (forall i w, In i (wanted c (asked_by c l)) -> asked_by c l i = Some w -> (0 < w)%num) -> (forall x, In x (constraints l) -> holdable x) ->
  exists s ops, ik_conf_read junk c l = Some (c, s) /\ prepared c ops c s /\
    Forall2 (fun n y => described c (fst n) (snd n) y) (combine (seq 0 (List.length (constraints l))) (constraints l)) (s_cells s) /\
    rk_ik junk tol iter c l q = rk_ik_solve tol iter c s (repeat 0%num (chain_joint_size c)) q.
Proof.
  intros junk c l tol iter q LE ND R Fx U Po O S NE W Wj K. destruct (C81_configuration junk c l ND R) as (c' & s & A & D & _ & P & ops & RO & As).
  assert (c' = c) as ->.
  { unfold ik_conf_read in A. destruct (ik_keys junk (c, ik_create c) l) as [[y ok]|] eqn:Ky; [|discriminate]. cbn in A. injection A as ->.
    pose proof (keys_links _ _ _ _ _ Ky) as B. cbn [fst] in B. assert (c_links c' = c_links c) as Q.
    { assert (Fx' : forall a, In a (c_links c) -> fixed_at (l_name a) l = None) by (intros a Ha; apply Fx; unfold names; now apply in_map).
      clear - P Fx'. induction P as [|a b h h' Q P IH]; [reflexivity|]. unfold postured in Q. rewrite (Fx' a (or_introl eq_refl)) in Q. subst b. f_equal. apply IH. intros x Hx. apply Fx'. now right. }
    rewrite B, Q. now destruct c. }
  exists s, ops. split; [exact A|]. pose proof (wanted_eq c _ _ (As LE)) as Wq. split; [|split; [exact D|]].
  - split; [exact U|]. split; [exact RO|]. split; [exact Po|]. split; [exact O|]. split; [exact S|]. split.
    { unfold ik_conf_read in A. destruct (ik_keys junk (c, ik_create c) l) as [[y ok]|] eqn:Ky; [|discriminate]. cbn in A. injection A as ->. exact (keys_vel _ _ _ _ _ Ky). }
    split; [rewrite Wq; exact W|]. split.
    { rewrite Wq. intros i w Hi Hw. apply (Wj i w Hi). rewrite <- (As LE); [exact Hw|]. unfold wanted in Hi. apply filter_In in Hi as [_ Hi]. now apply andb_prop in Hi. }
    intros x Hx. destruct (f2_in_r _ _ _ D x Hx) as ([n y] & Hn & Dn). refine (described_plain c n y x NE (K y _) Dn). now apply in_combine_r in Hn.
  - unfold rk_ik. rewrite A. reflexivity.
Qed.
End Thms.

(** ** Examples: the mechanism of two prismatic joints, a position cell on each link *)
Definition w1 : vec3 Qc := V3 (qz 1) (qz 1) (qz 1).
Definition w9 : vec3 Qc := V3 (qz 9) (qz 9) (qz 9).
Definition on_ (i : nat) : option (cattr Qc) := Some (Attr i 0 v3zero w1).
Definition ab_ops : list (op Qc) := [JRegAll (qz 1); MoveTo [qq 1 2; qq 1 4]; CReg 10 WldPos (on_ 1) full; CReg 11 WldPos (on_ 0) full].
Definition up : seqcell Qc := SeqCell (qz 1) [Entry 0 w1 (V3 (qz 3) (qz 0) (qz 3))].
Definition nothing : seqcell Qc := SeqCell (qz 2) [Entry 5 w1 (V3 (qz 0) (qz 0) (qz 8))].
Definition stay9 : seqcell Qc := SeqCell (qz 2) [Entry 1 w9 (V3 (qz 1) (qz 0) (qq 3 2))].
Definition go (q : list (seqcell Qc)) : option (list (ikline Qc)) :=
  obind (run lmech (ik_create lmech) ab_ops) (fun r => rk_ik_solve (qz 0) 1 (fst r) (snd r) (repeat 0%num 2) q).
Lemma lmech_settable : settable lmech.
Proof. unfold settable. vm_compute. reflexivity. Qed.
Definition rows_view (r : list (ikline Qc)) : list (list Qc) := map (fun x => fst x :: snd x) r.
(** Three steps: nothing, the upper link up by a quarter, nothing. *)
Example C92_ex : exists r, go [nothing; up; nothing] = Some r /\
  rows_view r = [[qz 2; qq 1 2; qq 1 4]; [qz 1; qq 1497 2722; qq 1889 5444]; [qz 2; qq 1497 2722; qq 1889 5444]].
Proof. apply (some_exq _ rows_view). vm_compute. reflexivity. Qed.
Lemma lmech_registered : wanted lmech (asked_all (List.length (c_links lmech)) (movable lmech) ab_ops) = [0; 1]%nat.
Proof. vm_compute. reflexivity. Qed.
Definition plain_view (r : chain Qc * solver Qc) : bool :=
  forallb (fun x => let ce := snd x in andb (negb (m_force (ce_mode ce))) (andb (Nat.ltb (a_id (ce_attr ce)) 2) (andb (match ce_kind ce with WldPos => true | _ => false end)
    (match a_w (ce_attr ce) with V3 a b d => andb (nleb 0 a) (andb (nleb 0 b) (nleb 0 d)) end)))) (s_cells (snd r)).
Lemma plain_spec r : plain_view r = true -> forall x, In x (s_cells (snd r)) -> plain 2 (snd x).
Proof.
  unfold plain_view. intros H x Hx. rewrite forallb_forall in H. specialize (H x Hx). cbv zeta in H. destruct x as [a ce]. cbn [snd] in *. apply andb_prop in H as [H1 H]. apply andb_prop in H as [H2 H]. apply andb_prop in H as [H3 H].
  split; [now destruct (m_force _)|]. split; [unfold valid; destruct (ce_kind ce); try discriminate; apply Nat.ltb_lt in H2; exact H2|]. split.
  - destruct (a_w (ce_attr ce)) as [p q d]. apply andb_prop in H as [Q1 H]. apply andb_prop in H as [Q2 Q3]. intros []; cbn [comp vx vy vz]; assumption.
  - destruct (ce_kind ce); try discriminate. exact Logic.I.
Qed.
Definition still_view (c : chain Qc) : bool := forallb (fun l => negb (turns (l_joint l))) (c_links c).
Lemma still_spec c : still_view c = true -> unit_turns c.
Proof. unfold still_view. intros H l Hl T. rewrite forallb_forall in H. specialize (H l Hl). rewrite T in H. discriminate. Qed.
Definition ids_view (s : solver Qc) : bool := forallb (fun x => Nat.ltb (ce_id (snd x)) 2) (s_cells s).
Lemma ids_spec s : ids_view s = true -> unnamed s nothing.
Proof. unfold ids_view. intros H x y Hx [<-|[]] Q. rewrite forallb_forall in H. specialize (H x Hx). cbn [e_id] in Q. rewrite <- Q in H. discriminate. Qed.
Lemma ab_run : exists r, run lmech (ik_create lmech) ab_ops = Some r /\ andb (plain_view r) (andb (still_view (fst r)) (ids_view (snd r))) = true.
Proof. apply some_ex. vm_compute. reflexivity. Qed.
Lemma ab_prepared c1 s : run lmech (ik_create lmech) ab_ops = Some (c1, s) -> prepared lmech ab_ops c1 s /\ unit_turns c1 /\ unnamed s nothing.
Proof.
  intros R. destruct ab_run as (r & A & B). rewrite R in A. injection A as <-. apply andb_prop in B as [B1 B2]. apply andb_prop in B2 as [B2 B3]. split; [|split; [exact (still_spec _ B2)|exact (ids_spec _ B3)]].
  apply C92_prepared; [exact lmech_usable|exact lmech_ordered|exact lmech_settable|reflexivity|exact R|right; reflexivity| | |].
  - rewrite lmech_registered. discriminate.
  - rewrite lmech_registered. intros i w [<-|[<-|[]]] Q; injection Q as <-; vm_compute; reflexivity.
  - exact (plain_spec _ B1).
Qed.
Lemma steps_weighted : weighted [nothing; up; nothing; stay9].
Proof. intros e x ax He. destruct He as [<-|[<-|[<-|[<-|[]]]]]; intros [<-|[]]; destruct ax; vm_compute; reflexivity. Qed.
Lemma weighted_incl {F} {N : Num F} (a b : list (seqcell F)) : incl a b -> weighted b -> weighted a.
Proof. intros S H e x ax He. apply H. now apply S. Qed.
(** The theorems apply to it, whatever the number of iterations. *)
Example C92_ex_theorems iter : exists c1 s rows, run lmech (ik_create lmech) ab_ops = Some (c1, s) /\ rk_ik_solve (qz 0) iter c1 s (repeat 0%num (chain_joint_size lmech)) [nothing; up; nothing; stay9] = Some rows /\
  List.length rows = 4%nat /\ nth_error rows 0 = Some (qz 2, displacements c1) /\ nth_error rows 2 = option_map (pair (qz 2)) (option_map snd (nth_error rows 1)).
Proof.
  destruct ab_run as ([c1 s] & R & _). destruct (ab_prepared c1 s R) as (P & T & Un). destruct (C92_lines lmech ab_ops c1 s (qz 0) iter _ qle_laws P steps_weighted) as (rows & A & B & _).
  exists c1, s, rows. split; [exact R|]. split; [exact A|]. split; [exact B|]. split.
  - exact (C92_hold lmech ab_ops c1 s (qz 0) iter _ rows 0 nothing qle_laws qm3err_self P T steps_weighted A eq_refl Un).
  - exact (C92_hold lmech ab_ops c1 s (qz 0) iter _ rows 2 nothing qle_laws qm3err_self P T steps_weighted A eq_refl Un).
Qed.

(** ** What does not hold *)
(** A step that moves nothing has no effect on later ones. *)
Definition forgets : Prop := forall (c : chain Qc) ops c1 (s : solver Qc) tol iter e1 e2 rows rows', prepared c ops c1 s -> weighted [e1; e2] ->
  rk_ik_solve tol iter c1 s (repeat 0%num (chain_joint_size c)) [e1] = Some [(sq_dt e1, displacements c1)] ->
  rk_ik_solve tol iter c1 s (repeat 0%num (chain_joint_size c)) [e1; e2] = Some rows -> rk_ik_solve tol iter c1 s (repeat 0%num (chain_joint_size c)) [e2] = Some rows' ->
  nth_error rows 1 = nth_error rows' 0.
Definition step_view (x : chain Qc * list (ikline Qc) * list (ikline Qc) * list (ikline Qc)) : list (list Qc) :=
  let '(c1, a, b, d) := x in displacements c1 :: rows_view a ++ rows_view b ++ rows_view d.
Definition stepped : option (chain Qc * list (ikline Qc) * list (ikline Qc) * list (ikline Qc)) :=
  obind (run lmech (ik_create lmech) ab_ops) (fun r =>
  let f := rk_ik_solve (qz 0) 1 (fst r) (snd r) (repeat 0%num (chain_joint_size lmech)) in
  obind (f [stay9]) (fun a => obind (f [stay9; up]) (fun b => option_map (fun d => (fst r, a, b, d)) (f [up])))).
Lemma stepped_is : exists x, stepped = Some x /\
  step_view x = [[qq 1 2; qq 1 4]; [qz 2; qq 1 2; qq 1 4]; [qz 2; qq 1 2; qq 1 4]; [qz 1; qq 5721 11170; qq 8161 22340]; [qz 1; qq 1497 2722; qq 1889 5444]].
Proof. apply (some_exq _ step_view). vm_compute. reflexivity. Qed.
Lemma rows_inj a : forall b, rows_view a = rows_view b -> a = b.
Proof. induction a as [|[x l] a IH]; intros [|[y h] b] H; try discriminate; [reflexivity|]. cbn in H. injection H as -> -> H. now rewrite (IH b H). Qed.
Lemma view_split a b d (u1 u2 u3 u4 u5 : list Qc) c1 : List.length a = 1%nat -> List.length b = 2%nat -> step_view (c1, a, b, d) = [u1; u2; u3; u4; u5] ->
  displacements c1 = u1 /\ rows_view a = [u2] /\ rows_view b = [u3; u4] /\ rows_view d = [u5].
Proof.
  unfold step_view. intros A B H. destruct a as [|a1 [|]]; try discriminate. destruct b as [|b1 [|b2 [|]]]; try discriminate. cbn in H. injection H as H1 H2 H3 H4 H5. cbn. rewrite H1, H2, H3, H4, H5. auto.
Qed.
Lemma lines_length {F} {N : Num F} {E : Ext F} {I : IKExt F} tol iter q : forall (c : chain F) s v rows, rk_ik_solve tol iter c s v q = Some rows -> List.length rows = List.length q.
Proof.
  induction q as [|e q IH]; cbn [rk_ik_solve]; intros c s v rows H; [injection H as <-; reflexivity|]. unfold obind in H. destruct (ik_bind _ _); [|discriminate]. destruct (ik_solve _ _ _ _ _); [|discriminate].
  destruct (rk_ik_solve _ _ _ _ _ q) eqn:Q; [|discriminate]. injection H as <-. cbn. f_equal. eauto.
Qed.
Lemma rows_two (b d : list (ikline Qc)) u v w : rows_view b = [u; v] -> rows_view d = [w] -> nth_error b 1 = nth_error d 0 -> v = w.
Proof. destruct b as [|b1 [|b2 [|]]]; try discriminate. destruct d as [|d1 [|]]; try discriminate. cbn. intros A B H. injection H as ->. congruence. Qed.
Lemma rows_one (a : list (ikline Qc)) t u d : rows_view a = [t :: u] -> d = u -> a = [(t, d)].
Proof. intros A ->. apply rows_inj. exact A. Qed.
Lemma nums_differ : [qz 1; qq 5721 11170; qq 8161 22340] <> [qz 1; qq 1497 2722; qq 1889 5444].
Proof. intros H. apply (f_equal (fun l => this (nth 1 l (qz 0)))) in H. vm_compute in H. discriminate. Qed.
Lemma stepped_inv c1 a b d : stepped = Some (c1, a, b, d) -> exists s, run lmech (ik_create lmech) ab_ops = Some (c1, s) /\ forall v, v = repeat 0%num (chain_joint_size lmech) ->
  rk_ik_solve (qz 0) 1 c1 s v [stay9] = Some a /\ rk_ik_solve (qz 0) 1 c1 s v [stay9; up] = Some b /\ rk_ik_solve (qz 0) 1 c1 s v [up] = Some d.
Proof.
  unfold stepped. generalize (run lmech (ik_create lmech) ab_ops) as o. intros [[c2 s]|]; [|discriminate]. unfold obind, option_map. cbn [fst snd]. generalize (repeat 0%num (chain_joint_size lmech)) as u. intros u.
  generalize [stay9; up] as q2. intros q2. generalize (qz 0) as tol, [stay9] as q1, [up] as q3. intros tol q1 q3. cbv zeta.
  destruct (rk_ik_solve tol 1 c2 s u q1) eqn:A; [|discriminate]. destruct (rk_ik_solve tol 1 c2 s u q2) eqn:B; [|discriminate]. destruct (rk_ik_solve tol 1 c2 s u q3) eqn:D; [|discriminate].
  intros H; injection H as <- <- <- <-. exists s. split; [reflexivity|]. intros v ->. auto.
Qed.
Theorem C92_weights_refuted : ~ forgets.
Proof.
  intros H. destruct stepped_is as ([[[c1 a] b] d] & S & V). destruct (stepped_inv _ _ _ _ S) as (s & R & K). destruct (K _ eq_refl) as (K1 & K2 & K3). clear K S.
  destruct (view_split _ _ _ _ _ _ _ _ _ (lines_length _ _ _ _ _ _ _ K1) (lines_length _ _ _ _ _ _ _ K2) V) as (V1 & V2 & V3 & V4).
  rewrite (rows_one a _ _ _ V2 V1) in K1. destruct (ab_prepared c1 s R) as [P _].
  assert (We : weighted [stay9; up]) by (refine (weighted_incl _ _ _ steps_weighted); intros e [<-|[<-|[]]]; [do 3 right; now left|right; now left]).
  exact (nums_differ (rows_two b d _ _ _ V3 V4 (H lmech ab_ops c1 s (qz 0) 1%nat stay9 up b d P We K1 K2 K3))).
Qed.

(** A joint given a posture by the configuration file begins there: a first step that names no cell prints the displacements
    which the file gives. *)
Definition keeps_posture (Z : ZtkLib) : Prop := forall junk (c : chain Qc) l tol iter e c' s rows, NoDup (names c) -> readable c l -> usable c -> posed c -> all_ordered c -> settable c ->
  ik_conf_read junk c l = Some (c', s) -> unnamed s e -> rk_ik junk tol iter c l [e] = Some rows -> rows = [(sq_dt e, displacements c')].
Definition half_ops : list (op Qc) := [MoveTo [qq 1 2; qq 1 4]].
Definition lposed : chain Qc := match run lmech (ik_create lmech) half_ops with Some r => fst r | None => lmech end.
Lemma some_fst {A B} (o : option (A * B)) d : match o with Some _ => true | None => false end = true -> exists y, o = Some (match o with Some r => fst r | None => d end, y).
Proof. destruct o as [[x y]|]; [intros _; exists y; reflexivity|discriminate]. Qed.
Lemma lposed_run : exists s, run lmech (ik_create lmech) half_ops = Some (lposed, s).
Proof. apply some_fst. vm_compute. reflexivity. Qed.
Lemma lposed_ok : usable lposed /\ posed lposed /\ all_ordered lposed /\ settable lposed.
Proof.
  destruct lposed_run as (s & R). destruct (run_usable half_ops lmech _ _ _ lmech_usable R) as [U P].
  destruct (setup_keeps half_ops lmech _ _ _ lmech_usable lmech_ordered (settable_steady _ lmech_usable lmech_ordered lmech_settable) eq_refl R) as (A & B & _).
  split; [exact U|]. split; [apply P; right; reflexivity|]. split; [exact A|]. now apply set_chain_same.
Qed.
Lemma lposed_names : names lposed = ["a"; "b"]%string. Proof. vm_compute. reflexivity. Qed.
Definition low_file : list (ikkey Qc) := [IKJoint "a" (Some (qz 0)) [qz 0]; IKJoint "b" (Some (qz 1)) []; IKConstraint "world_pos" [CLink "b"%string]]%string.
Lemma lposed_link i n k : nth_error (names lposed) i = Some n -> nth_error (map (fun l => joint_size (l_joint l)) (c_links lposed)) i = Some k ->
  exists l, nth_error (c_links lposed) i = Some l /\ l_name l = n /\ joint_size (l_joint l) = k.
Proof. unfold names. rewrite !nth_error_map. destruct (nth_error (c_links lposed) i) as [l|]; [|discriminate]. cbn. intros A B. exists l. repeat split; congruence. Qed.
Lemma lposed_sizes : map (fun l => joint_size (l_joint l)) (c_links lposed) = [1; 1]%nat. Proof. vm_compute. reflexivity. Qed.
Lemma low_readable : readable lposed low_file.
Proof.
  assert (J : forall i n k, nth_error (names lposed) i = Some n -> nth_error (map (fun l => joint_size (l_joint l)) (c_links lposed)) i = Some k -> (0 < k)%nat -> forall p w d,
    (zero_b (weight_of w) = true -> k <= List.length d)%nat -> meant lposed p (IKJoint n w d)).
  { intros i n k A B C p w d D. destruct (lposed_link i n k A B) as (l & E1 & E2 & E3). right. exists i, l. rewrite E3. auto. }
  intros p k t H. unfold low_file in H.
  destruct p as [|x1 p]; [injection H as <- _; apply (J 0%nat "a"%string 1%nat); [now rewrite lposed_names|now rewrite lposed_sizes|lia|cbn; lia]|]. injection H as <- H.
  destruct p as [|x2 p]; [injection H as <- _; apply (J 1%nat "b"%string 1%nat); [now rewrite lposed_names|now rewrite lposed_sizes|lia|vm_compute; discriminate]|]. injection H as <- H.
  destruct p as [|x3 p]; [injection H as <- _; split; [exists WldPos; reflexivity|split; [rewrite lposed_names; intros y; cbn; intuition|]]|].
  - apply (some_l _ 1%nat). vm_compute. reflexivity.
  - injection H as <- H. destruct p; discriminate.
Qed.
Definition low (Z : ZtkLib) : option (chain Qc * solver Qc * list (ikline Qc)) :=
  obind (ik_conf_read conf_junk lposed low_file) (fun r => option_map (fun rows => (fst r, snd r, rows)) (rk_ik conf_junk (qz 0) 2 lposed low_file [nothing])).
Definition low_view (x : chain Qc * solver Qc * list (ikline Qc)) : list (list Qc) := let '(c, s, rows) := x in [if ids_view s then qz 1 else qz 0] :: displacements c :: rows_view rows.
Lemma low_is (Z : ZtkLib) : exists x, low Z = Some x /\ low_view x = [[qz 1]; [qz 0; qq 1 4]; [qz 2; qz 0; qq 17 36]].
Proof. apply (some_exq _ low_view). destruct Z. vm_compute. reflexivity. Qed.
Lemma low_inv (Z : ZtkLib) c' s rows : low Z = Some (c', s, rows) -> ik_conf_read conf_junk lposed low_file = Some (c', s) /\ rk_ik conf_junk (qz 0) 2 lposed low_file [nothing] = Some rows.
Proof.
  unfold low. generalize (ik_conf_read conf_junk lposed low_file) as o, (rk_ik conf_junk (qz 0) 2 lposed low_file [nothing]) as o'. intros [[c2 s2]|] [r|]; try discriminate. cbn. intros H; injection H as -> -> ->. auto.
Qed.
Lemma low_view_inv c' s rows u v : u <> [qz 0] -> low_view (c', s, rows) = [u; v; [qz 2; qz 0; qq 17 36]] -> ids_view s = true /\ displacements c' = v /\ rows_view rows = [[qz 2; qz 0; qq 17 36]].
Proof. unfold low_view. intros Hu H. injection H as H1 H2 H3. destruct (ids_view s); [auto|]. exfalso. apply Hu. rewrite <- H1. reflexivity. Qed.
Lemma one_not_zero : [qz 1] <> [qz 0].
Proof. intros H. apply (f_equal (fun l => this (nth 0 l (qz 0)))) in H. vm_compute in H. discriminate. Qed.
Lemma low_differs (rows : list (ikline Qc)) d : rows_view rows = [[qz 2; qz 0; qq 17 36]] -> d = [qz 0; qq 1 4] -> rows <> [(qz 2, d)].
Proof. intros A -> ->. apply (f_equal (fun l => this (nth 2 (hd [] l) (qz 0)))) in A. vm_compute in A. discriminate. Qed.
(** It does not hold: the frames are still those of the posture before, so the cells are bound to positions of the old posture. *)
Theorem C92_posture_refuted : forall Z : ZtkLib, ~ keeps_posture Z.
Proof.
  intros Z H. destruct (low_is Z) as ([[c' s] rows] & A & V). destruct (low_inv Z c' s rows A) as [A1 A2]. destruct (low_view_inv _ _ _ _ _ one_not_zero V) as (V1 & V2 & V3).
  destruct lposed_ok as (U & P & O & S). assert (ND : NoDup (names lposed)) by (rewrite lposed_names; repeat (constructor; [cbn; intuition discriminate|]); constructor).
  exact (low_differs rows _ V3 V2 (H conf_junk lposed low_file (qz 0) 2%nat nothing c' s rows ND low_readable U P O S A1 (ids_spec _ V1) A2)).
Qed.
(** A file without postures. *)
Definition all_file : list (ikkey Qc) := [IKJoint "all" (Some (qz 1)) []; IKConstraint "world_pos" [CLink "b"%string; CWeight w9]]%string.
Lemma all_readable : readable lposed all_file.
Proof.
  intros p k t H. unfold all_file in H. destruct p as [|x1 p]; [injection H as <- _; left; reflexivity|]. injection H as <- H.
  destruct p as [|x2 p]; [injection H as <- _; split; [exists WldPos; reflexivity|split; [rewrite lposed_names; intros y; cbn; intuition|]]|].
  - apply (some_l _ 0%nat). vm_compute. reflexivity.
  - injection H as <- H. destruct p; discriminate.
Qed.
Lemma all_wanted : wanted lposed (asked_by lposed all_file) = [0; 1]%nat. Proof. vm_compute. reflexivity. Qed.
Lemma all_asked i w : In i [0; 1]%nat -> asked_by lposed all_file i = Some w -> w = qz 1.
Proof. intros [<-|[<-|[]]] H; vm_compute in H; apply (f_equal (fun o => match o with Some x => x | None => w end)) in H; rewrite <- H; reflexivity. Qed.
Example C92_ex_configured (Z : ZtkLib) iter q : weighted q -> exists rows, rk_ik conf_junk (qz 0) iter lposed all_file q = Some rows /\ List.length rows = List.length q.
Proof.
  intros We. destruct lposed_ok as (U & P & O & S).
  destruct (C92_configured conf_junk lposed all_file (qz 0) iter q qle_laws) as (s & ops & _ & Pr & _ & R); auto.
  - rewrite lposed_names; repeat (constructor; [cbn; intuition discriminate|]); constructor.
  - exact all_readable.
  - rewrite lposed_names. intros n [<-|[<-|[]]]; vm_compute; reflexivity.
  - rewrite <- (map_length (fun l => joint_size (l_joint l))), lposed_sizes. cbn. lia.
  - rewrite all_wanted. discriminate.
  - rewrite all_wanted. intros i w Hi Hw. rewrite (all_asked i w Hi Hw). vm_compute. reflexivity.
  - intros x [<-|[]]. split; [reflexivity|]. split; [|cbn; intuition discriminate]. intros w ax [<-|[]]. destruct ax; vm_compute; reflexivity.
  - rewrite R. destruct (C92_lines lposed ops lposed s (qz 0) iter q qle_laws Pr We) as (rows & A & B & _). eauto.
Qed.

Print Assumptions C92_lines.
Print Assumptions C92_targets.
Print Assumptions C92_hold.
Print Assumptions C92_prepared.
Print Assumptions C92_configured.
Print Assumptions C92_weights_refuted.
Print Assumptions C92_posture_refuted.
