(** * IK_Rows: contents of the assembled constraint rows, and distribution of joint velocities. *)
From Coq Require Import List Arith Lia Bool Field.
From Verif Require Import Num NumFacts Vec Motor_Model Joint_Model Joint_Proofs Body_Model Tree Link_Model Chain_Proofs Jacobi_Model IK_Model IK_Laws IK_Spec IK_Cells IK_Index IK_Dims.
Import ListNotations.

Section Rows.
Context {F : Type} {N : Num F} {L : NumLaws F N} {E : Ext F} {I : IKExt F}.
Add Field FFieldRw : num_field.
Local Open Scope num_scope.
Notation lk := (link F).

(** Blocks of a vector over all joints, read from the position of the first link. *)
Fixpoint gather (h : list lk) (sw : list bool) (v : list F) : list F :=
  match h, sw with
  | l :: h', b :: sw' => (if b then firstn (lsize l) v else []) ++ gather h' sw' (skipn (lsize l) v)
  | _, _ => []
  end.
Fixpoint rest (h : list lk) (sw : list bool) (a v : list F) : F :=
  match h, sw with
  | l :: h', b :: sw' => (if b then 0 else dot (firstn (lsize l) a) (firstn (lsize l) v)) + rest h' sw' (skipn (lsize l) a) (skipn (lsize l) v)
  | _, _ => 0
  end.
Fixpoint put (h : list lk) (sw : list bool) (x v : list F) : list F :=
  match h, sw with
  | l :: h', b :: sw' => if b then firstn (lsize l) x ++ put h' sw' (skipn (lsize l) x) (skipn (lsize l) v)
                         else firstn (lsize l) v ++ put h' sw' x (skipn (lsize l) v)
  | _, _ => v
  end.
Fixpoint regsize (h : list lk) (sw : list bool) : nat :=
  match h, sw with l :: h', b :: sw' => ((if b then lsize l else 0) + regsize h' sw')%nat | _, _ => O end.

Lemma dot_app (a b c d : list F) : length a = length c -> dot (a ++ b) (c ++ d) = dot a c + dot b d.
Proof. revert c. induction a as [|x a IH]; intros [|y c] H; cbn in *; try discriminate; [ring|]. rewrite IH by lia. ring. Qed.
Lemma sub_products_dot (a : list F) : forall r b, sub_products r a b = r - dot a b.
Proof. induction a as [|x a IH]; intros r [|y b]; cbn; try ring. rewrite IH. ring. Qed.
Lemma total_cons l (h : list lk) : total (l :: h) = (lsize l + total h)%nat. Proof. reflexivity. Qed.
Lemma gather_len (h : list lk) : forall sw v, length sw = length h -> (total h <= length v)%nat -> length (gather h sw v) = regsize h sw.
Proof.
  induction h as [|l h IH]; intros [|b sw] v H T; cbn [gather regsize length] in *; try discriminate; [auto|]. rewrite total_cons in T.
  rewrite app_length, IH by (try rewrite skipn_length; lia). destruct b; [rewrite firstn_length; lia|reflexivity].
Qed.
Lemma firstn_skipn_split n (v : list F) : v = firstn n v ++ skipn n v. Proof. symmetry. apply firstn_skipn. Qed.
Lemma dot_put (h : list lk) : forall sw a v x, length sw = length h -> length a = total h -> length v = total h -> length x = regsize h sw ->
  dot a (put h sw x v) = dot (gather h sw a) x + rest h sw a v.
Proof.
  induction h as [|l h IH]; intros [|b sw] a v x H A V X; cbn [put gather rest regsize length] in *; try discriminate.
  - destruct a; [|discriminate]. destruct x; [|discriminate]. cbn. ring.
  - rewrite total_cons in *. rewrite (firstn_skipn_split (lsize l) a) at 1. destruct b.
    + rewrite dot_app by (rewrite !firstn_length; lia). rewrite IH by (rewrite ?skipn_length; lia).
      rewrite (firstn_skipn_split (lsize l) x) at 3. rewrite dot_app by (rewrite !firstn_length; lia). ring.
    + rewrite dot_app by (rewrite !firstn_length; lia). rewrite IH by (rewrite ?skipn_length; lia). cbn [app]. ring.
Qed.
Lemma put_len (h : list lk) : forall sw v x, length sw = length h -> length v = total h -> length x = regsize h sw -> length (put h sw x v) = total h.
Proof.
  induction h as [|l h IH]; intros [|b sw] v x H V X; cbn [put regsize length] in *; try discriminate; [exact V|]. rewrite total_cons in *.
  destruct b; rewrite app_length, firstn_length, IH by (rewrite ?skipn_length; lia); lia.
Qed.

(** Slices of a link whose offset is [o]. *)
Lemma link_slice_placed (l : lk) o (v : list F) : l_offset l = (if Nat.ltb 0 (lsize l) then Some o else None) -> (o + lsize l <= length v)%nat ->
  link_slice l v = Some (firstn (lsize l) (skipn o v)).
Proof.
  intros O Hl. unfold link_slice. fold (lsize l). rewrite O. destruct (Nat.ltb_spec 0 (lsize l)) as [P|P].
  - unfold take_at. rewrite (proj2 (Nat.leb_le _ _) Hl). reflexivity.
  - replace (lsize l) with 0%nat by lia. reflexivity.
Qed.
Lemma write_at_ok k (a row : list F) : (k + length a <= length row)%nat -> write_at k a row = Some (firstn k row ++ a ++ skipn (k + length a) row).
Proof. intros H. unfold write_at. now rewrite (proj2 (Nat.leb_le _ _) H). Qed.

(** One row: the registered blocks side by side, and the reference without the contribution of the rest. *)
Lemma fill_row_spec (h : list lk) : forall sw o p jrow vel row srv, placed o h -> length sw = length h ->
  (o + total h <= length jrow)%nat -> (o + total h <= length vel)%nat -> length row = (p + regsize h sw)%nat ->
  fill_row h sw (sw_ofs p h sw) jrow vel row srv =
  Some (firstn p row ++ gather h sw (skipn o jrow), srv - rest h sw (skipn o jrow) (skipn o vel)).
Proof.
  induction h as [|l h IH]; intros [|b sw] o p jrow vel row srv P S J V R; cbn [length] in S; try discriminate.
  - cbn. cbn in R. rewrite app_nil_r, firstn_all2 by lia. do 2 f_equal. ring.
  - apply placed_cons in P as [O P]. rewrite total_cons in *. cbn [regsize] in R. cbn [fill_row sw_ofs gather rest]. fold (lsize l).
    destruct b; cbn [obind]; rewrite (link_slice_placed l o jrow O) by lia; cbn [obind].
    + assert (La : length (firstn (lsize l) (skipn o jrow)) = lsize l) by (rewrite firstn_length, skipn_length; lia).
      set (a := firstn (lsize l) (skipn o jrow)) in *.
      assert (Sk : forall v : list F, skipn (lsize l) (skipn o v) = skipn (o + lsize l) v) by (intros v; rewrite skipn_skipn; f_equal; lia). rewrite !Sk.
      destruct (Nat.eq_dec (lsize l) 0) as [Z|Z].
      * assert (a = []) as -> by (destruct a; [auto|cbn in La; lia]). cbn [app]. rewrite Z, Nat.add_0_r in *.
        rewrite Nat.add_0_r. rewrite IH with (o := o) by (auto; lia). f_equal. f_equal. ring.
      * assert (M : forall (T : Type) (u w : T), match a with [] => u | _ :: _ => w end = w) by (intros; destruct a; [cbn in La; lia|auto]). rewrite M.
        rewrite write_at_ok by (rewrite La; lia). cbn [obind].
        rewrite IH with (o := (o + lsize l)%nat); [|exact P|lia|lia|lia|].
        2:{ rewrite !app_length, firstn_length, skipn_length, La. lia. }
        f_equal. f_equal; [|ring].
        rewrite (app_assoc (firstn p row)), firstn_app, firstn_all2 by (rewrite app_length, firstn_length, La; lia).
        replace (p + lsize l - _)%nat with 0%nat by (rewrite app_length, firstn_length, La; lia). cbn [firstn]. rewrite app_nil_r, <- app_assoc. reflexivity.
    + rewrite (link_slice_placed l o vel O) by lia. cbn [obind].
      rewrite IH with (o := (o + lsize l)%nat) by (auto; lia). rewrite !skipn_skipn, sub_products_dot. cbn [app].
      replace (lsize l + o)%nat with (o + lsize l)%nat by lia. f_equal. f_equal. ring.
Qed.

(** rkIKSolveRate distributes the velocities of the registered joints. *)
Lemma scatter_put (H : list lk) : forall h hpre sw pre x v, H = hpre ++ h -> placed (length pre) h -> length sw = length h ->
  length v = total h -> length x = regsize h sw ->
  scatter H (sw_index (length hpre) sw) x (pre ++ v) = Some (pre ++ put h sw x v).
Proof.
  induction h as [|l h IH]; intros hpre [|b sw] pre x v HH P S V X; cbn [length] in S; try discriminate; [reflexivity|].
  apply placed_cons in P as [O P]. rewrite total_cons in V. cbn [regsize] in X. cbn [sw_index put].
  assert (HH' : H = (hpre ++ [l]) ++ h) by (rewrite <- app_assoc; exact HH).
  assert (Lp : length (hpre ++ [l]) = Datatypes.S (length hpre)) by (rewrite app_length; cbn; lia).
  destruct b.
  - cbn [scatter]. replace (nth_error H (length hpre)) with (Some l) by (rewrite HH, nth_error_app2, Nat.sub_diag by lia; reflexivity). cbn [obind]. fold (lsize l).
    unfold take_at. rewrite (proj2 (Nat.leb_le _ _)) by lia. cbn [obind skipn]. set (a := firstn (lsize l) x).
    assert (La : length a = lsize l) by (unfold a; rewrite firstn_length; lia).
    destruct (Nat.eq_dec (lsize l) 0) as [Z|Z].
    + assert (a = []) as -> by (destruct a; [auto|cbn in La; lia]). rewrite Z in *. cbn [skipn app]. rewrite Nat.add_0_r in P. rewrite <- Lp. apply IH; auto.
    + assert (M : forall (T : Type) (u w : T), match a with [] => u | _ :: _ => w end = w) by (intros; destruct a; [cbn in La; lia|auto]). rewrite M.
      rewrite O, (proj2 (Nat.ltb_lt _ _)) by lia. cbn [obind]. rewrite write_at_ok by (rewrite app_length, La; lia). cbn [obind].
      rewrite firstn_app, firstn_all, Nat.sub_diag, La. cbn [firstn]. rewrite app_nil_r, skipn_app, (skipn_all2 pre) by lia.
      replace (length pre + lsize l - length pre)%nat with (lsize l) by lia. cbn [app]. rewrite app_assoc, <- Lp.
      rewrite IH; [now rewrite <- app_assoc|exact HH'| | lia| |]; rewrite ?app_length, ?skipn_length, ?La; auto; lia.
  - rewrite (firstn_skipn_split (lsize l) v) at 1. rewrite app_assoc, <- Lp.
    assert (La : length (firstn (lsize l) v) = lsize l) by (rewrite firstn_length; lia).
    rewrite IH; [now rewrite <- app_assoc|exact HH'| | lia| |]; rewrite ?app_length, ?skipn_length, ?La; auto; lia.
Qed.
(** Each block of the result. *)
Lemma put_slice (h : list lk) : forall sw p o x v i l c, placed o h -> length sw = length h -> length v = total h -> length x = regsize h sw ->
  nth_error h i = Some l -> nth_error (sw_ofs p h sw) i = Some c ->
  firstn (lsize l) (skipn (total (firstn i h)) (put h sw x v)) =
  match c with Some k => firstn (lsize l) (skipn (k - p) x) | None => firstn (lsize l) (skipn (total (firstn i h)) v) end.
Proof.
  induction h as [|l0 h IH]; intros [|b sw] p o x v i l c P S V X Hl Hc; cbn [length] in S; try discriminate; [now destruct i|].
  apply placed_cons in P as [O P]. rewrite total_cons in V. cbn [regsize] in X. cbn [put sw_ofs] in *. fold (lsize l0) in Hc.
  assert (Lx : b = true -> length (firstn (lsize l0) x) = lsize l0) by (intros ->; rewrite firstn_length; lia).
  assert (Lv : length (firstn (lsize l0) v) = lsize l0) by (rewrite firstn_length; lia).
  destruct i as [|i]; cbn [nth_error firstn] in *.
  - injection Hl as <-. destruct b; cbn [nth_error] in Hc; injection Hc as <-; cbn [total fold_right skipn].
    + rewrite Nat.sub_diag. cbn [skipn]. rewrite firstn_app, Lx, Nat.sub_diag by auto. cbn [firstn]. rewrite app_nil_r, firstn_firstn, Nat.min_id. reflexivity.
    + rewrite firstn_app, Lv, Nat.sub_diag. cbn [firstn]. rewrite app_nil_r, firstn_firstn, Nat.min_id. reflexivity.
  - rewrite total_cons. destruct b; cbn [nth_error] in Hc.
    + rewrite skipn_app, skipn_all2, Lx by (auto; rewrite Lx by auto; lia). replace (lsize l0 + total (firstn i h) - lsize l0)%nat with (total (firstn i h)) by lia. cbn [app].
      rewrite (IH sw (p + lsize l0)%nat (o + lsize l0)%nat _ _ i l c) by (rewrite ?skipn_length; auto; lia).
      destruct c as [k|]; rewrite skipn_skipn; [|do 2 f_equal; lia].
      assert (K : (p + lsize l0 <= k)%nat).
      { clear - Hc. revert Hc. generalize (p + lsize l0)%nat as q. revert sw i k. induction h as [|y h IHh]; intros [|d sw] i k q Hc; destruct i as [|i]; cbn in Hc; try discriminate.
        - destruct d; [injection Hc as <-; lia|discriminate].
        - destruct d; cbn in Hc; apply IHh in Hc; lia. }
      do 2 f_equal. lia.
    + rewrite skipn_app, skipn_all2, Lv by (rewrite Lv; lia). replace (lsize l0 + total (firstn i h) - lsize l0)%nat with (total (firstn i h)) by lia. cbn [app].
      rewrite (IH sw p (o + lsize l0)%nat _ _ i l c) by (rewrite ?skipn_length; auto; lia).
      destruct c as [k|]; [reflexivity|]. rewrite skipn_skipn. do 2 f_equal. lia.
Qed.
Lemma slices_eq (h : list lk) : forall (u v : list F), length u = total h -> length v = total h ->
  (forall i l, nth_error h i = Some l -> firstn (lsize l) (skipn (total (firstn i h)) u) = firstn (lsize l) (skipn (total (firstn i h)) v)) -> u = v.
Proof.
  induction h as [|l h IH]; intros u v U V H; [destruct u, v; try discriminate; auto|]. rewrite total_cons in *.
  rewrite (firstn_skipn_split (lsize l) u), (firstn_skipn_split (lsize l) v). f_equal; [exact (H 0%nat l eq_refl)|].
  apply IH; [rewrite skipn_length; lia|rewrite skipn_length; lia|]. intros i l' Hl. specialize (H (S i) l' Hl). cbn [firstn] in H. rewrite total_cons in H.
  rewrite !skipn_skipn, !(Nat.add_comm (total (firstn i h))). exact H.
Qed.
Lemma total_firstn_le (h : list lk) i l : nth_error h i = Some l -> (total (firstn i h) + lsize l <= total h)%nat.
Proof.
  revert i. induction h as [|y h IH]; intros [|i] H; cbn [nth_error firstn] in *; try discriminate; rewrite !total_cons; [injection H as ->; cbn; lia|].
  specialize (IH i H). lia.
Qed.
Lemma link_slice_nth (h : list lk) i l (v : list F) : placed 0 h -> nth_error h i = Some l -> length v = total h ->
  link_slice l v = Some (firstn (lsize l) (skipn (total (firstn i h)) v)).
Proof.
  intros P Hl V. apply link_slice_placed; [exact (placed_nth 0 h i l P Hl)|]. rewrite V. now apply total_firstn_le.
Qed.

(** ** The rows of all enabled cells *)
Definition axis_row (c : chain F) (s : solver F) (jrow : list F) (srv w : F) : list F * F * F :=
  (gather (c_links c) (s_sw s) jrow, srv - rest (c_links c) (s_sw s) jrow (s_vel s), w).
Definition ref_vel (c : chain F) (ce : cell F) : option (vec3 F) :=
  option_map (fun e => if m_force (ce_mode ce) then snd (cell_acm (ce_set_eval (x_sqrt (v3wsqr e (a_w (ce_attr ce)))) ce) e) else e) (cell_err c ce).
Definition expect (c : chain F) (s : solver F) (ce : cell F) : option (list (list F * F * F)) :=
  if mode_off (ce_mode ce) then Some [] else
  obind (cell_cmat c ce (repeat v3zero (chain_joint_size c))) (fun jm => obind (ref_vel c ce) (fun r => let w := a_w (ce_attr ce) in
  Some ((if m_x (ce_mode ce) then [axis_row c s (map (fun v => vx v) jm) (vx r) (vx w)] else []) ++
        (if m_y (ce_mode ce) then [axis_row c s (map (fun v => vy v) jm) (vy r) (vy w)] else []) ++
        (if m_z (ce_mode ce) then [axis_row c s (map (fun v => vz v) jm) (vz r) (vz w)] else [])))).
(** The used part of the working arrays. *)
Definition holds (k n : nat) (q : eqs F) (rs : list (list F * F * F)) : Prop :=
  qdims k n (length rs) q /\ q_row q = length rs /\ firstn (q_row q) (q_mat q) = map (fun r => fst (fst r)) rs /\
  firstn (q_row q) (q_srv q) = map (fun r => snd (fst r)) rs /\ firstn (q_row q) (q_we q) = map snd rs.
Lemma firstn_set_nth {A} k (x : A) l : (k < length l)%nat -> firstn (S k) (set_nth k x l) = firstn k l ++ [x].
Proof. revert k. induction l as [|y l IH]; intros [|k] H; cbn in *; try lia; [reflexivity|]. f_equal. apply IH. lia. Qed.
Definition laid_out (c : chain F) (s : solver F) : Prop :=
  placed 0 (c_links c) /\ length (s_sw s) = length (c_links c) /\ s_jofs s = sw_ofs 0 (c_links c) (s_sw s) /\ length (s_vel s) = chain_joint_size c.
Lemma cell_eq_holds c (s : solver F) jrow srv w q rs k : laid_out c s -> length jrow = chain_joint_size c ->
  holds k (regsize (c_links c) (s_sw s)) q rs -> (length rs < k)%nat ->
  exists q', cell_eq c s true jrow srv w q = Some q' /\ holds k (regsize (c_links c) (s_sw s)) q' (rs ++ [axis_row c s jrow srv w]).
Proof.
  intros (P & Sw & Of & Vl) J (Q & R & A & B & C) K. rewrite chain_joint_size_total in *. assert (Q' := Q). destruct Q' as (Q1 & Q2 & Q3 & Q4 & Q5).
  unfold cell_eq. rewrite R in *. destruct (nth_error (q_mat q) (length rs)) as [row|] eqn:Hr; [|apply nth_error_None in Hr; lia]. cbn [obind].
  rewrite Q3, Q4, (proj2 (Nat.ltb_lt _ _) K). cbn [andb].
  assert (Lr : length row = regsize (c_links c) (s_sw s)) by (rewrite Forall_forall in Q2; apply Q2; eapply nth_error_In; eauto).
  rewrite Of, (fill_row_spec (c_links c) (s_sw s) 0 0) by (auto; lia). cbn [obind firstn app skipn fst snd]. eexists. split; [reflexivity|].
  unfold holds, qdims. cbn. rewrite app_length. cbn. rewrite !map_app, !set_nth_len. cbn.
  assert (G : length (gather (c_links c) (s_sw s) jrow) = regsize (c_links c) (s_sw s)) by (apply gather_len; lia).
  repeat split; auto; try lia; try (apply Forall_set_nth; auto; fail).
  - change (firstn (S (length rs)) (set_nth (length rs) (gather (c_links c) (s_sw s) jrow) (q_mat q)) = map (fun r => fst (fst r)) rs ++ [gather (c_links c) (s_sw s) jrow]). rewrite firstn_set_nth by lia. now rewrite A.
  - change (firstn (S (length rs)) (set_nth (length rs) (srv - rest (c_links c) (s_sw s) jrow (s_vel s)) (q_srv q)) = map (fun r => snd (fst r)) rs ++ [srv - rest (c_links c) (s_sw s) jrow (s_vel s)]). rewrite firstn_set_nth by lia. now rewrite B.
  - change (firstn (S (length rs)) (set_nth (length rs) w (q_we q)) = map snd rs ++ [w]). rewrite firstn_set_nth by lia. now rewrite C.
Qed.
Lemma cell_eq_holds_if c (s : solver F) (on : bool) jrow srv w q rs k : laid_out c s -> length jrow = chain_joint_size c ->
  holds k (regsize (c_links c) (s_sw s)) q rs -> (length rs < k)%nat ->
  exists q', cell_eq c s on jrow srv w q = Some q' /\ holds k (regsize (c_links c) (s_sw s)) q' (rs ++ (if on then [axis_row c s jrow srv w] else [])).
Proof.
  intros A B C D. destruct on; [now apply cell_eq_holds|]. exists q. rewrite app_nil_r. auto.
Qed.
(** Every enabled cell has a matrix of the right size and an error. *)
Definition cell_ready (c : chain F) (ce : cell F) : Prop :=
  mode_off (ce_mode ce) = false -> (exists jm, cell_cmat c ce (repeat v3zero (chain_joint_size c)) = Some jm /\ length jm = chain_joint_size c) /\ cell_err c ce <> None.
Lemma eq_cell_holds c (s : solver F) ce q rs k ev : laid_out c s -> cell_ready c ce -> holds k (regsize (c_links c) (s_sw s)) q rs -> (length rs + 3 <= k)%nat ->
  exists r rs', eq_cell c s ce q ev = Some r /\ expect c s ce = Some rs' /\ (length rs' <= 3)%nat /\ holds k (regsize (c_links c) (s_sw s)) (snd (fst r)) (rs ++ rs').
Proof.
  intros Lo Rd Q K. unfold eq_cell, expect. destruct (mode_off (ce_mode ce)) eqn:Off.
  - eexists _, []. rewrite app_nil_r. cbn. repeat split; auto; try lia; apply Q.
  - destruct (Rd Off) as [(jm & J1 & J2) Er]. rewrite J1. cbn [obind]. unfold ref_vel. destruct (cell_err c ce) as [e|]; [|easy]. cbn [obind option_map].
    cbv zeta. set (ce1 := ce_set_eval (x_sqrt (v3wsqr e (a_w (ce_attr ce)))) ce).
    assert (Rv : snd (if m_force (ce_mode ce1) then cell_acm ce1 e else (ce1, e)) = if m_force (ce_mode ce) then snd (cell_acm ce1 e) else e)
      by (cbn; destruct (m_force (ce_mode ce)); reflexivity).
    rewrite Rv. set (rv := if m_force (ce_mode ce) then _ else e). change (ce_mode ce1) with (ce_mode ce).
    destruct (cell_eq_holds_if c s (m_x (ce_mode ce)) (map (fun v => vx v) jm) (vx rv) (vx (a_w (ce_attr ce))) q rs k Lo) as (q1 & E1 & H1); [now rewrite map_length|exact Q|lia|].
    rewrite E1. cbn [obind].
    set (r1 := if m_x (ce_mode ce) then [axis_row c s (map (fun v => vx v) jm) (vx rv) (vx (a_w (ce_attr ce)))] else []) in *.
    assert (L1 : (length r1 <= 1)%nat) by (unfold r1; destruct (m_x _); cbn; lia).
    destruct (cell_eq_holds_if c s (m_y (ce_mode ce)) (map (fun v => vy v) jm) (vy rv) (vy (a_w (ce_attr ce))) q1 (rs ++ r1) k Lo) as (q2 & E2 & H2); [now rewrite map_length|exact H1|rewrite app_length; lia|].
    rewrite E2. cbn [obind].
    set (r2 := if m_y (ce_mode ce) then [axis_row c s (map (fun v => vy v) jm) (vy rv) (vy (a_w (ce_attr ce)))] else []) in *.
    assert (L2 : (length r2 <= 1)%nat) by (unfold r2; destruct (m_y _); cbn; lia).
    destruct (cell_eq_holds_if c s (m_z (ce_mode ce)) (map (fun v => vz v) jm) (vz rv) (vz (a_w (ce_attr ce))) q2 ((rs ++ r1) ++ r2) k Lo) as (q3 & E3 & H3); [now rewrite map_length|exact H2|rewrite !app_length; lia|].
    rewrite E3. cbn [obind].
    set (r3 := if m_z (ce_mode ce) then [axis_row c s (map (fun v => vz v) jm) (vz rv) (vz (a_w (ce_attr ce)))] else []) in *.
    assert (L3 : (length r3 <= 1)%nat) by (unfold r3; destruct (m_z _); cbn; lia).
    eexists _, (r1 ++ r2 ++ r3). split; [reflexivity|]. split; [reflexivity|]. split; [rewrite !app_length; lia|]. cbn [fst snd].
    rewrite !app_assoc. exact H3.
Qed.
Fixpoint expect_all (c : chain F) (s : solver F) (l : list (nat * cell F)) : option (list (list F * F * F)) :=
  match l with [] => Some [] | x :: t => obind (expect c s (snd x)) (fun a => option_map (app a) (expect_all c s t)) end.
Lemma eq_cells_holds c (s : solver F) k : laid_out c s -> forall l q rs ev, (forall x, In x l -> cell_ready c (snd x)) ->
  holds k (regsize (c_links c) (s_sw s)) q rs -> (length rs + length l * 3 <= k)%nat ->
  exists r rs', eq_cells c s l q ev = Some r /\ expect_all c s l = Some rs' /\ holds k (regsize (c_links c) (s_sw s)) (snd (fst r)) (rs ++ rs').
Proof.
  intros Lo. induction l as [|x l IH]; intros q rs ev Rd Q K; cbn [eq_cells expect_all].
  - exists ([], q, ev), []. rewrite app_nil_r. auto.
  - cbn [length] in K. destruct (eq_cell_holds c s (snd x) q rs k ev Lo) as (r1 & rs1 & A1 & A2 & A3 & A4); [apply Rd; now left|exact Q|lia|].
    rewrite A1, A2. cbn [obind]. destruct (IH (snd (fst r1)) (rs ++ rs1) (snd r1)) as (r2 & rs2 & B1 & B2 & B3); [intros; apply Rd; now right|exact A4|rewrite app_length; lia|].
    rewrite B1, B2. cbn. eexists _, (rs1 ++ rs2). split; [reflexivity|]. split; [reflexivity|]. cbn. rewrite app_assoc. exact B3.
Qed.
End Rows.
