(** * Urdf_Doc: what the converter holds after evaluating a document. *)
From Coq Require Import Bool String List Arith Lia Permutation DecimalString.
From Verif Require Import Num NumFacts Vec VecFacts Motor_Model Joint_Model Body_Model Tree Tree_Proofs Link_Model Link_Spec Link_Proofs Link_Properties Jacobi_Proofs IK_Model Conf_Model Ztk_Model Ztk_Proofs Ztk_Chain Urdf_Model Urdf_Spec Urdf_Tree.
Import ListNotations.

Section UD.
Context {F : Type} {N : Num F} {E : Ext F} {U : UrdfExt F}.

Lemma ofold_app {A B} (f : A -> B -> option A) l m a : ofold f (l ++ m) a = obind (ofold f l a) (ofold f m).
Proof.
  unfold ofold. rewrite fold_left_app. destruct (fold_left _ l (Some a)) as [x|]; [reflexivity|]. cbn [obind].
  induction m as [|y m IH]; [reflexivity|exact IH].
Qed.

(** ** Links *)
Definition vshape (lname : string) (k : nat) (v : visual F) : ushape F := US (vis_name lname k v) (Some (vi_geometry v)) (origin_frame (vi_origin v)).
Fixpoint vshapes (lname : string) (k : nat) (vs : list (visual F)) : list (ushape F) :=
  match vs with [] => [] | v :: t => vshape lname k v :: vshapes lname (S k) t end.
Definition lkept (k : nat) (l : dlink F) : ulink F := UL (Some (dl_name l)) (lmp l) (seq k (length (dl_visuals l))) None None.
Fixpoint links_from (k : nat) (ls : list (dlink F)) : list (ulink F) :=
  match ls with [] => [] | l :: t => lkept k l :: links_from (k + length (dl_visuals l)) t end.
Definition shapes_of (ls : list (dlink F)) : list (ushape F) := flat_map (fun l => vshapes (dl_name l) 0 (dl_visuals l)) ls.

Lemma vshapes_length lname k vs : length (vshapes lname k vs) = length vs.
Proof. revert k. induction vs as [|v vs IH]; intros k; [reflexivity|]. cbn [vshapes length]. now rewrite IH. Qed.
Lemma visual_eval v lname k : In (vi_geometry v) ["box"; "sphere"; "cylinder"; "mesh"]%string -> eval_visual (visual_xml v) (Some lname) k = Some (vshape lname k v).
Proof.
  intros G. unfold eval_visual, visual_xml, vshape, vis_name. destruct v as [nm o ge]. cbn [vi_name vi_origin vi_geometry] in *.
  assert (IG : is_geometry ge = true) by (destruct G as [<-|[<-|[<-|[<-|[]]]]]; reflexivity).
  destruct nm as [nm|]; cbn [opt x_find x_attrs find fst snd String.eqb Ascii.eqb Bool.eqb option_map obind txt av_text x_kids];
    unfold ofold; cbn [fold_left obind]; (cbn [x_tag origin_xml String.eqb Ascii.eqb Bool.eqb];
    change (eval_origin (Elem "origin" _ _) ?f) with (eval_origin (origin_xml o) f); cbn [us_name us_type us_fl]; rewrite eval_origin_eq; cbn [option_map obind us_name us_type us_fl];
    unfold eval_geometry; cbn [x_kids fold_left x_tag]; rewrite IG; reflexivity).
Qed.
Lemma inertial_eval n m : eval_inertial (inertial_xml n) m = Some (MP (in_mass n) (fpos (origin_frame (in_origin n))) (m3rot (fatt (origin_frame (in_origin n))) (tensor n))).
Proof.
  unfold eval_inertial. cbn [inertial_xml x_kids]. unfold ofold. cbn [fold_left obind x_tag origin_xml String.eqb Ascii.eqb Bool.eqb].
  change (eval_origin (Elem "origin" _ _) ?f) with (eval_origin (origin_xml (in_origin n)) f). rewrite eval_origin_eq. reflexivity.
Qed.
Definition link_step (s : list (ushape F) * ulink F) (k : xml F) : option (list (ushape F) * ulink F) :=
  (fun '(ss, l) k =>
    if String.eqb (x_tag k) "inertial" then option_map (fun m => (ss, UL (ul_name l) m (ul_shapes l) (ul_joint l) (ul_child l))) (eval_inertial k (ul_mp l))
    else if String.eqb (x_tag k) "visual" then
      option_map (fun s => (ss ++ [s], UL (ul_name l) (ul_mp l) (ul_shapes l ++ [List.length ss]) (ul_joint l) (ul_child l)))
                 (eval_visual k (ul_name l) (List.length (ul_shapes l)))
    else Some (ss, l)) s k.
Lemma visuals_eval lname m vs : (forall v, In v vs -> In (vi_geometry v) ["box"; "sphere"; "cylinder"; "mesh"]%string) -> forall ss k0,
  length ss = k0 + (length ss - k0) -> forall is, is = seq k0 (length ss - k0) ->
  ofold link_step (map visual_xml vs) (ss, UL (Some lname) m is None None) =
  Some (ss ++ vshapes lname (length ss - k0) vs, UL (Some lname) m (seq k0 (length ss - k0 + length vs)) None None).
Proof.
  induction vs as [|v vs IH]; intros G ss k0 LK is HI; subst is.
  - unfold ofold. cbn [map fold_left vshapes length]. now rewrite app_nil_r, Nat.add_0_r.
  - cbn [map]. unfold ofold. cbn [fold_left obind]. unfold link_step at 2. cbn [x_tag visual_xml String.eqb Ascii.eqb Bool.eqb ul_name ul_mp ul_shapes ul_joint ul_child].
    change (eval_visual (Elem "visual" _ _) ?a ?b) with (eval_visual (visual_xml v) a b). rewrite visual_eval by (apply G; left; reflexivity). cbn [option_map].
    rewrite seq_length. assert (LS : length (ss ++ [vshape lname (length ss - k0) v]) = S (length ss)) by (rewrite app_length; cbn; lia).
    specialize (IH (fun x Hx => G x (or_intror Hx)) (ss ++ [vshape lname (length ss - k0) v]) k0). rewrite LS in IH.
    replace (S (length ss) - k0) with (S (length ss - k0)) in IH by lia. unfold ofold in IH. rewrite IH.
    + rewrite <- app_assoc. cbn [vshapes app length]. replace (S (length ss - k0) + length vs) with (length ss - k0 + S (length vs)) by lia. reflexivity.
    + lia.
    + rewrite (seq_S (length ss - k0)). now rewrite <- LK.
Qed.
Lemma link_eval (i : uinfo F) l : (forall v, In v (dl_visuals l) -> In (vi_geometry v) ["box"; "sphere"; "cylinder"; "mesh"]%string) ->
  eval_link i (link_xml l) = Some (UI (ui_name i) (ui_shapes i ++ vshapes (dl_name l) 0 (dl_visuals l)) (ui_links i ++ [lkept (length (ui_shapes i)) l]) (ui_joints i)).
Proof.
  intros G. unfold eval_link. cbn [link_xml x_find x_attrs find fst snd String.eqb Ascii.eqb Bool.eqb option_map txt av_text x_kids].
  fold link_step. change (fun '(ss, l0) (k : xml F) => _) with link_step.
  assert (H : ofold link_step (opt inertial_xml (dl_inertial l)) (ui_shapes i, UL (Some (dl_name l)) (MP 0%num v3zero m3zero) [] None None) = Some (ui_shapes i, UL (Some (dl_name l)) (lmp l) [] None None)).
  { unfold lmp. destruct (dl_inertial l) as [n|]; [|reflexivity]. unfold opt, ofold. cbn [fold_left obind]. unfold link_step. cbn [x_tag inertial_xml String.eqb Ascii.eqb Bool.eqb ul_mp].
    change (eval_inertial (Elem "inertial" _ _) ?a) with (eval_inertial (inertial_xml n) a). rewrite inertial_eval. reflexivity. }
  rewrite ofold_app, H. cbn [obind].
  rewrite (visuals_eval (dl_name l) (lmp l) (dl_visuals l) G (ui_shapes i) (length (ui_shapes i))); [|lia|rewrite Nat.sub_diag; reflexivity].
  cbn [obind]. rewrite Nat.sub_diag. reflexivity.
Qed.
Lemma links_eval ls : (forall l v, In l ls -> In v (dl_visuals l) -> In (vi_geometry v) ["box"; "sphere"; "cylinder"; "mesh"]%string) -> forall i : uinfo F,
  ofold eval_link (map link_xml ls) i = Some (UI (ui_name i) (ui_shapes i ++ shapes_of ls) (ui_links i ++ links_from (length (ui_shapes i)) ls) (ui_joints i)).
Proof.
  induction ls as [|l ls IH]; intros G i.
  - unfold ofold, shapes_of. cbn [map fold_left links_from flat_map]. rewrite !app_nil_r. now destruct i.
  - cbn [map]. change (ofold eval_link (link_xml l :: map link_xml ls) i) with (ofold eval_link ([link_xml l] ++ map link_xml ls) i).
    rewrite ofold_app. unfold ofold at 1. cbn [fold_left obind]. rewrite link_eval by (intros v Hv; eapply G; eauto using in_eq). cbn [obind].
    rewrite IH by (intros; eapply G; eauto using in_cons). cbn [ui_name ui_shapes ui_links ui_joints links_from]. unfold shapes_of. cbn [flat_map].
    rewrite <- !app_assoc, app_length, vshapes_length. reflexivity.
Qed.
Lemma links_from_names k ls : map ul_name (links_from k ls) = map Some (map dl_name ls).
Proof. revert k. induction ls as [|l ls IH]; intros k; [reflexivity|]. cbn [links_from map]. now rewrite IH. Qed.
Lemma links_from_unbound k ls j u : nth_error (links_from k ls) j = Some u -> ul_joint u = None /\ ul_child u = None.
Proof. revert k j. induction ls as [|l ls IH]; intros k [|j] H; cbn [links_from nth_error] in H; try discriminate; [injection H as <-; auto|eauto]. Qed.

(** ** Joints *)
Section Joints.
Context (d : udoc F).
Notation names := (map dl_name (d_links d)).
Definition idx (s : string) : nat := match find_name names s with Some i => i | None => length names end.
Definition jops (js : list (djoint F)) : list (nat * nat) := map (fun j => (idx (dj_parent j), idx (dj_child j))) js.
Definition cj (j : nat) : nat := match nth_error (d_joints d) j with Some x => idx (dj_child x) | None => length names end.
Context (V : valid_doc d).

Lemma idx_nth s : In s names -> nth_error names (idx s) = Some s /\ find_name names s = Some (idx s).
Proof.
  intros I. destruct V as (_ & ND & _). apply In_nth_error in I as (k & Hk). unfold idx. rewrite (find_name_nth _ _ _ ND Hk). auto.
Qed.
Lemma idx_inj s t : In s names -> In t names -> idx s = idx t -> s = t.
Proof. intros A B Q. destruct (idx_nth s A) as [A1 _]. destruct (idx_nth t B) as [B1 _]. rewrite Q in A1. congruence. Qed.
Lemma idx_lt s : In s names -> idx s < length names.
Proof. intros I. destruct (idx_nth s I) as [H _]. eapply nth_lt; eauto. Qed.
Lemma joint_names j : In j (d_joints d) -> In (dj_parent j) names /\ In (dj_child j) names.
Proof. intros I. destruct V as (_ & _ & _ & J & _). auto. Qed.
Lemma child_unique j k x y : nth_error (d_joints d) j = Some x -> nth_error (d_joints d) k = Some y -> dj_child x = dj_child y -> j = k.
Proof.
  intros A B Q. destruct V as (_ & _ & NC & _). apply (NoDup_nth_error (map dj_child (d_joints d))); [exact NC| |].
  - rewrite map_length. eapply nth_lt; eauto.
  - rewrite !nth_error_map, A, B. cbn. congruence.
Qed.
Lemma child_same x y : In x (d_joints d) -> In y (d_joints d) -> dj_child x = dj_child y -> x = y.
Proof.
  intros A B Q. apply In_nth_error in A as (j & A). apply In_nth_error in B as (k & B). assert (j = k) by (eapply child_unique; eauto). congruence.
Qed.
Lemma cj_nth j x : nth_error (d_joints d) j = Some x -> cj j = idx (dj_child x).
Proof. intros H. unfold cj. now rewrite H. Qed.

(** Distance from the first link. *)
Inductive udep : string -> nat -> Prop :=
| ud_root l rest : d_links d = l :: rest -> udep (dl_name l) 0
| ud_child j k : In j (d_joints d) -> udep (dj_parent j) k -> udep (dj_child j) (S k).
Lemma udep_ex s : reaches d s -> exists k, udep s k.
Proof. induction 1 as [l rest H|j I _ [k IH]]; [exists 0|exists (S k)]; econstructor; eauto. Qed.
Lemma udep_parent j k : In j (d_joints d) -> udep (dj_child j) k -> exists k', k = S k' /\ udep (dj_parent j) k'.
Proof.
  intros I H. inversion H as [l rest HL EQ|j' k' I' H' EQ]; subst.
  - destruct V as (_ & _ & _ & _ & _ & R & _). exfalso. eapply R; eauto.
  - assert (j' = j) by (apply child_same; auto). subst j'. eauto.
Qed.
Lemma udep_name k s : nth_error names k = Some s -> exists n, udep s n.
Proof.
  intros H. apply nth_error_In in H. apply in_map_iff in H as (l & <- & I). apply udep_ex. destruct V as (_ & _ & _ & _ & R & _). auto.
Qed.
Lemma below_udep js p c : incl js (d_joints d) -> below (jops js) p c -> forall s t k k', nth_error names p = Some s -> nth_error names c = Some t -> udep s k -> udep t k' ->
  (forall k1 k2 z, udep z k1 -> udep z k2 -> k1 = k2) -> k' <= k.
Proof.
  intros I B. induction B as [p|p q c IN _ IH]; intros s t k k' A C DS DT UN.
  - assert (s = t) by congruence. subst t. rewrite (UN _ _ _ DS DT). lia.
  - apply in_map_iff in IN as (j & EQ & IJ). injection EQ as EQ1 EQ2. specialize (I j IJ). destruct (joint_names j I) as [N1 N2].
    destruct (idx_nth _ N2) as [H2 _]. rewrite EQ2, A in H2. injection H2 as ->. destruct (idx_nth _ N1) as [H1 _]. rewrite EQ1 in H1.
    destruct (udep_parent j k I DS) as (k0 & -> & D0). specialize (IH _ t k0 k' H1 C D0 DT UN). lia.
Qed.
Lemma udep_unique s k1 : udep s k1 -> forall k2, udep s k2 -> k1 = k2.
Proof.
  induction 1 as [l rest HL|j k I _ IH]; intros k2 H2.
  - inversion H2 as [l' rest' HL' EQ|j' k' I' H' EQ]; subst; [reflexivity|].
    destruct V as (_ & _ & _ & _ & _ & R & _). exfalso. eapply R; eauto.
  - destruct (udep_parent j k2 I H2) as (k0 & -> & D0). f_equal. auto.
Qed.
Lemma jops_legal js2 : forall js1, js1 ++ js2 = d_joints d -> legal (length names) (jops js1) (jops js2).
Proof.
  induction js2 as [|j js2 IH]; intros js1 EQ; cbn [jops map]; [constructor|].
  assert (I : In j (d_joints d)) by (rewrite <- EQ; apply in_or_app; right; left; reflexivity). destruct (joint_names j I) as [N1 N2].
  constructor; [apply idx_lt, N1|apply idx_lt, N2| | |].
  - unfold jops. rewrite map_map. cbn [snd]. intros IN. apply in_map_iff in IN as (j1 & Q & I1). assert (I1' : In j1 (d_joints d)) by (rewrite <- EQ; apply in_or_app; auto).
    destruct (joint_names j1 I1') as [_ N3]. apply idx_inj in Q; auto. destruct V as (_ & _ & NC & _). rewrite <- EQ, map_app in NC. cbn [map] in NC.
    apply NoDup_remove_2 in NC. apply NC. apply in_or_app. left. rewrite <- Q. apply in_map, I1.
  - intros B. destruct (idx_nth _ N1) as [H1 _]. destruct (idx_nth _ N2) as [H2 _]. destruct (udep_name _ _ H1) as (k & D1).
    assert (D2 : udep (dj_child j) (S k)) by (constructor; auto).
    assert (G : S k <= k); [|lia].
    refine (below_udep js1 _ _ _ B _ _ k (S k) H1 H2 D1 D2 _).
    + intros x Hx. rewrite <- EQ. apply in_or_app; auto.
    + intros k1 k2 z Z1 Z2. eapply udep_unique; eauto.
  - specialize (IH (js1 ++ [j])). rewrite <- app_assoc in IH. specialize (IH EQ). unfold jops in *. rewrite map_app in IH. exact IH.
Qed.

(** The state after the first joints. *)
Record jstate (i0 : uinfo F) (h0 : list (link F)) (js : list (djoint F)) (i : uinfo F) (h : list (link F)) : Prop := JState {
  js_name : ui_name i = ui_name i0; js_shapes : ui_shapes i = ui_shapes i0; js_links : map lcore (ui_links i) = map lcore (ui_links i0);
  js_ljoint : forall k u j, nth_error (ui_links i) k = Some u -> (ul_joint u = Some j <-> exists x, nth_error js j = Some x /\ idx (dj_child x) = k);
  js_len : length (ui_joints i) = length js;
  js_joint : forall j x, nth_error js j = Some x -> exists o, nth_error (ui_joints i) j = Some o /\ jcore o = jkept x (idx (dj_parent x)) (idx (dj_child x));
  js_tree : add_children h0 (jops js) = Some h;
  js_sim : sim cj i h }.
Lemma joints_eval (i0 : uinfo F) (h0 : list (link F)) : map ul_name (ui_links i0) = map Some names ->
  forall js2 js1, js1 ++ js2 = d_joints d -> forall i h h', jstate i0 h0 js1 i h -> add_children h (jops js2) = Some h' ->
  exists i', ofold eval_joint (map joint_xml js2) i = Some i' /\ jstate i0 h0 (d_joints d) i' h'.
Proof.
  intros NM0. induction js2 as [|x js2 IH]; intros js1 EQ i h h' ST A.
  - rewrite app_nil_r in EQ. subst js1. cbn [jops map add_children] in A. injection A as <-. exists i. split; [reflexivity|exact ST].
  - cbn [jops map add_children] in A. destruct (add_child h (idx (dj_parent x)) (idx (dj_child x))) as [h1|] eqn:AC; [|discriminate]. cbn [obind] in A. fold (jops js2) in A.
    assert (Hx : nth_error (d_joints d) (length js1) = Some x) by (rewrite <- EQ; apply nth_app_mid).
    assert (I : In x (d_joints d)) by (eapply nth_error_In; eauto). destruct (joint_names x I) as [N1 N2].
    destruct ST as [SN SS SL SJ SLN SJO ST SM].
    assert (NMi : map ul_name (ui_links i) = map Some names).
    { rewrite <- NM0. transitivity (map (fun t => fst (fst t)) (map lcore (ui_links i))); [rewrite map_map; reflexivity|]. rewrite SL, map_map. reflexivity. }
    assert (NTH : forall j, j <= length js1 -> exists y, nth_error (d_joints d) j = Some y).
    { intros j Hj. destruct (nth_error (d_joints d) j) eqn:Q; eauto. apply nth_error_None in Q. apply nth_lt in Hx. lia. }
    assert (INJ : forall j k, j <= length js1 -> k <= length js1 -> cj j = cj k -> j = k).
    { intros j k Hj Hk Q. destruct (NTH j Hj) as (a & Ha). destruct (NTH k Hk) as (b & Hb). rewrite (cj_nth _ _ Ha), (cj_nth _ _ Hb) in Q.
      apply idx_inj in Q; [|apply joint_names; eapply nth_error_In; eauto..]. eapply child_unique; eauto. }
    destruct (joint_eval cj i h h1 names x (idx (dj_parent x)) (idx (dj_child x)) SM NMi (proj2 (idx_nth _ N1)) (proj2 (idx_nth _ N2)) (idx_lt _ N2))
      as (i1 & EV & A1 & A2 & A3 & A4 & A5 & A6 & A7 & A8).
    + rewrite SLN. apply cj_nth, Hx.
    + rewrite SLN. intros j Hj Q. rewrite <- (cj_nth _ _ Hx) in Q. apply INJ in Q; lia.
    + rewrite SLN. exact INJ.
    + exact AC.
    + specialize (IH (js1 ++ [x])). rewrite <- app_assoc in IH. destruct (IH EQ i1 h1 h') as (i' & EV' & ST').
      * constructor; try congruence.
        -- intros k u j Hu. destruct (A4 k u Hu) as (u0 & Hu0 & QJ). rewrite QJ, SLN. destruct (Nat.eqb_spec k (idx (dj_child x))) as [->|NE].
           ++ split.
              ** intros Q. injection Q as <-. exists x. split; [apply nth_app_mid|reflexivity].
              ** intros (y & Hy & Q). assert (Hy' : nth_error (d_joints d) j = Some y).
                 { rewrite <- EQ. change (x :: js2) with ([x] ++ js2). rewrite app_assoc. apply nth_app_l, Hy. }
                 f_equal. apply idx_inj in Q; [|apply joint_names; eapply nth_error_In; eauto|exact N2]. symmetry. eapply child_unique; eauto.
           ++ rewrite (SJ k u0 j Hu0). split; intros (y & Hy & Q).
              ** exists y. split; [apply nth_app_l, Hy|exact Q].
              ** apply nth_snoc in Hy as [Hy|[-> ->]]; [eauto|congruence].
        -- rewrite A5, SLN, app_length. cbn [length]. lia.
        -- intros j y Hy. apply nth_snoc in Hy as [Hy|[-> ->]].
           ++ destruct (SJO j y Hy) as (o & Ho & Q). destruct (A6 j o Ho) as (o' & Ho' & Q'). exists o'. split; [exact Ho'|congruence].
           ++ rewrite SLN in A7. exists (jkept x (idx (dj_parent x)) (idx (dj_child x))). split; [exact A7|reflexivity].
        -- unfold jops. rewrite map_app, add_children_app. fold (jops js1). rewrite ST. cbn [obind map add_children]. rewrite AC. reflexivity.
      * exact A.
      * exists i'. split; [|exact ST']. cbn [map]. change (joint_xml x :: map joint_xml js2) with ([joint_xml x] ++ map joint_xml js2). rewrite ofold_app. unfold ofold at 1. cbn [fold_left obind]. rewrite EV. exact EV'.
Qed.

Lemma with_link js : with_tag "link" (map link_xml (d_links d) ++ map joint_xml js) = map link_xml (d_links d).
Proof.
  unfold with_tag. rewrite filter_app. replace (filter _ (map joint_xml js)) with (@nil (xml F)) by (induction js; [reflexivity|exact IHjs]).
  rewrite app_nil_r. generalize (d_links d). induction l as [|l ls IH]; [reflexivity|]. cbn. now f_equal.
Qed.
Lemma with_joint ls : with_tag "joint" (map link_xml ls ++ map joint_xml (d_joints d)) = map joint_xml (d_joints d).
Proof.
  unfold with_tag. rewrite filter_app. replace (filter _ (map link_xml ls)) with (@nil (xml F)) by (induction ls; [reflexivity|exact IHls]).
  cbn [app]. generalize (d_joints d). induction l as [|l js IH]; [reflexivity|]. cbn. now f_equal.
Qed.
Definition info0 : uinfo F := UI (Some (d_name d)) (shapes_of (d_links d)) (links_from 0 (d_links d)) [].
Lemma doc_eval (h0 : list (link F)) : length h0 = length names -> (forall i l, nth_error h0 i = Some l -> unattached l) ->
  exists i h, eval_robot (doc_xml d) = Some (Some i) /\ jstate info0 h0 (d_joints d) i h /\ well_formed h /\
    length h = length names /\ (forall c l, nth_error h c = Some l -> forall q, l_parent l = Some q <-> In (q, c) (jops (d_joints d))) /\
    (forall k l, nth_error h0 k = Some l -> exists l', nth_error h k = Some l' /\ same_data l l').
Proof.
  intros LN UN. pose proof (jops_legal (d_joints d) [] eq_refl) as LG. cbn [jops map] in LG. fold (jops (d_joints d)) in LG. rewrite <- LN in LG.
  destruct (C23_add_child_forest h0 _ UN LG) as (h & A & LE & _ & PA & SD).
  assert (G : forall l v, In l (d_links d) -> In v (dl_visuals l) -> In (vi_geometry v) ["box"; "sphere"; "cylinder"; "mesh"]%string).
  { destruct V as (_ & _ & _ & _ & _ & _ & G). exact G. }
  destruct (joints_eval info0 h0 (links_from_names 0 (d_links d)) (d_joints d) [] eq_refl info0 h0 h) as (i & EV & ST).
  - constructor; try reflexivity.
    + intros k u j Hu. apply links_from_unbound in Hu as [Hu _]. rewrite Hu. split; [discriminate|]. intros (x & Hx & _). destruct j; discriminate.
    + intros j x Hx. destruct j; discriminate.
    + constructor; cbn [info0 ui_links ui_joints].
      * rewrite <- (map_length ul_name), (links_from_names 0), map_length. exact LN.
      * intros k u l Hu Hl. apply links_from_unbound in Hu as [_ Hu]. rewrite Hu. destruct (UN k l Hl) as (_ & -> & _). split; [reflexivity|]. intros ? ?; discriminate.
      * intros j o Hj. destruct j; discriminate.
      * intros c l Hl _. apply (UN c l Hl).
  - exact A.
  - exists i, h. split; [|split; [exact ST|split; [|split; [congruence|split; [exact PA|exact SD]]]]].
    + unfold eval_robot. cbn [doc_xml x_tag String.eqb Ascii.eqb Bool.eqb x_find x_attrs find fst snd option_map txt av_text x_kids].
      rewrite with_link, with_joint, (links_eval _ G). cbn [obind ui_name ui_shapes ui_links ui_joints app length]. fold info0. rewrite EV. reflexivity.
    + destruct V as (NE & ND & NC & _ & RE & RT & _). apply (C23_complete_tree h0 (jops (d_joints d)) h UN LG); [| | |exact A].
      * rewrite LN, map_length. destruct (d_links d); [congruence|cbn; lia].
      * intros I. unfold jops in I. rewrite map_map in I. apply in_map_iff in I as (j & Q & IJ). cbn [snd] in Q. destruct (d_links d) as [|l rest] eqn:HL; [congruence|].
        destruct (joint_names j IJ) as [_ N2]. destruct (idx_nth _ N2) as [H2 _]. rewrite Q in H2. rewrite HL in H2. cbn in H2. injection H2 as H2. apply (RT j l rest IJ eq_refl). auto.
      * intros c [C0 C1]. rewrite LN in C1. destruct (nth_error names c) as [s|] eqn:Hs; [|apply nth_error_None in Hs; lia].
        pose proof (nth_error_In _ _ Hs) as Is. apply in_map_iff in Is as (l & Ql & Il). pose proof (RE l Il) as R. rewrite Ql in R.
        destruct (idx_nth s (nth_error_In _ _ Hs)) as [Hi _]. assert (Qc : idx s = c).
        { apply (proj1 (NoDup_nth_error names) ND); [apply idx_lt; eapply nth_error_In; eauto|congruence]. }
        inversion R as [l0 rest HL EQ|j IJ _ EQ].
        -- rewrite <- EQ in Hs. rewrite HL in Hs, ND. cbn [map] in Hs, ND. destruct c as [|c]; [lia|]. cbn [nth_error] in Hs. apply NoDup_cons_iff in ND as [ND _]. exfalso. apply ND. eapply nth_error_In; eauto.
        -- unfold jops. rewrite map_map. cbn [snd]. apply in_map_iff. exists j. split; [congruence|exact IJ].
Qed.
End Joints.
End UD.
