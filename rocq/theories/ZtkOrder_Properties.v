(** * ZtkOrder_Properties: the order of keys in chain files (C103). *)
From Coq Require Import Bool String List ZArith Arith Lia QArith Qcanon Permutation.
From Verif Require Import Num NumFacts Vec VecFacts Motor_Model Joint_Model Joint_Properties Body_Model Tree Tree_Proofs Link_Model ExtQ Ztk_Model Ztk_Spec Ztk_Proofs Ztk_Chain Ztk_Read Ztk_Properties ZtkOrder_Spec ZtkOrder_Proofs.
Import ListNotations.

Section Thm.
Context {F : Type} {N : Num F} {E : Ext F} {Z : ZtkLib}.
Local Open Scope nat_scope.
Notation key := (key F).

(** ** Names *)
Lemma names_cons (k : key) ks : names_in (k :: ks) = (match k with KName s => [s] | _ => [] end) ++ names_in ks. Proof. reflexivity. Qed.
Lemma eval_name {A} (h : A -> key -> option (A * bool)) (nm : A -> option string) (fine : key -> Prop) :
  (forall s k s' ok, fine k -> h s k = Some (s', ok) -> ok = true /\ nm s' = match k with KName n => Some n | _ => nm s end) ->
  forall ks s s' ok, Forall fine ks -> eval_keys h s ks = Some (s', ok) -> ok = true /\ (names_in ks = [] -> nm s' = nm s) /\ (forall n x, names_in ks = n ++ [x] -> nm s' = Some x).
Proof.
  intros H. induction ks as [|k ks IH]; intros s s' ok FK Q; cbn [eval_keys] in Q.
  - injection Q as <- <-. split; [reflexivity|]. split; [reflexivity|]. intros [|? ?] x C; discriminate C.
  - inversion FK as [|? ? Fk Fks]; subst. destruct (h s k) as [[s1 o1]|] eqn:K; [|discriminate]. destruct (H _ _ _ _ Fk K) as [-> N1]. cbn [obind] in Q. destruct (IH _ _ _ Fks Q) as (O & A1 & A2). split; [exact O|]. rewrite names_cons.
    destruct (names_in ks) as [|y ys] eqn:NK.
    + rewrite app_nil_r. split; [intros C; rewrite (A1 eq_refl), N1; destruct k; (reflexivity || discriminate C)|]. intros n x C. rewrite (A1 eq_refl), N1.
      destruct k; cbn in C; try (destruct n; discriminate C). destruct n as [|? [|? ?]]; try discriminate C. now injection C as ->.
    + split; [intros C; destruct k; discriminate C|]. intros n x C.
      destruct k; cbn [app] in C; try (now apply (A2 n)). destruct n as [|a n]; [discriminate C|]. injection C as _ C. now apply (A2 n).
Qed.
Lemma motor_name ks t ok : Forall motor_fine ks -> motor_read ks = Some (t, ok) -> forall n x, names_in ks = n ++ [x] -> s_name t = Some x.
Proof.
  intros FK H n x Q. unfold motor_read in H. destruct (eval_keys motor_key (Slot None None) ks) as [[s o]|] eqn:K; [|discriminate]. cbn [obind] in H.
  destruct (eval_name motor_key (@s_name F) motor_fine) with (ks := ks) (s := Slot (F := F) None None) (s' := s) (ok := o) as (-> & _ & A); auto.
  - intros s0 k s' ok0 Fk H0. destruct (motor_does k Fk s0 s' ok0 I H0) as [-> _]. split; [reflexivity|]. unfold motor_key in H0. destruct k; try (injection H0 as <-; reflexivity).
    destruct (motor_query_assign _ _); injection H0 as <-; reflexivity.
  - destruct (s_kind s) as [m|]; [|discriminate]. cbn [obind] in H. destruct (eval_keys mkind_key m ks) as [[m' o']|]; [|discriminate]. injection H as <- _. cbn. eauto.
Qed.
Lemma link_name names shapes arr ks t ok : Forall (link_fine names shapes) ks -> link_read names shapes arr ks = Some (t, ok) ->
  ok = true /\ (forall x, rl_name t = Some x -> In x (names_in ks)) /\ (forall n x, names_in ks = n ++ [x] -> rl_name t = Some x).
Proof.
  intros FK H. unfold link_read in H. destruct (eval_keys (link_key names shapes) (RL None None body_init fid) ks) as [[r o]|] eqn:K; [|discriminate]. cbn [obind] in H.
  destruct (eval_name (link_key names shapes) (@rl_name F) (link_fine names shapes)) with (ks := ks) (s := RL (F := F) None None body_init fid) (s' := r) (ok := o) as (-> & A0 & A); auto.
  - intros s0 k s' ok0 Fk H0. destruct (link_does names shapes k Fk s0 s' ok0 I H0) as [-> _]. split; [reflexivity|]. destruct k; cbn [link_key] in H0; try (injection H0 as <-; reflexivity).
    + destruct (existsb _ _); [discriminate|]. injection H0 as <-. reflexivity.
    + destruct (joint_query_assign _ _) as [[j []]|]; try discriminate. injection H0 as <-. reflexivity.
    + destruct shapes; [discriminate|]. destruct (find_name _ _); [|discriminate]. injection H0 as <-. reflexivity.
  - destruct (match rl_joint r with Some _ => _ | None => _ end) as [j|]; [|discriminate]. cbn [obind] in H. destruct (eval_keys (joint_key arr) j ks) as [[j' o']|]; [|discriminate]. injection H as <- <-. cbn [rl_name].
    split; [reflexivity|]. split; [|exact A]. intros x Q. destruct (names_in ks) as [|y ys] eqn:NK; [rewrite (A0 eq_refl) in Q; discriminate|].
    destruct (@exists_last _ (y :: ys)) as (n & z & EQ); [discriminate|]. rewrite (A n z EQ) in Q. injection Q as <-. rewrite EQ. apply in_or_app. right. left. reflexivity.
Qed.

(** ** Sections with one tag *)
Lemma tags_same {T} (rd : list T -> list key -> option (T * bool)) (all : list (list key)) (Inv : list (list key) -> list T -> Prop) :
  let h := fun i a ks => option_map (fun '(m, ok) => (set_nth i m a, ok)) (rd a ks) in
  (forall don ks todo a t ok, all = don ++ ks :: todo -> Inv don a -> rd a ks = Some (t, ok) -> ok = true /\ Inv (don ++ [ks]) (set_nth (length don) t a)) ->
  (forall don ks todo a ks', all = don ++ ks :: todo -> Inv don a -> reordered ks ks' -> rd a ks = rd a ks') ->
  forall todo todo', Forall2 reordered todo todo' -> forall don a, all = don ++ todo -> Inv don a ->
  eval_tag h (length don) a todo = eval_tag h (length don) a todo' /\ (forall r, eval_tag h (length don) a todo = Some r -> Inv all r).
Proof.
  intros h ST SM. induction 1 as [|ks ks' todo todo' R _ IH]; intros don a AL IA.
  - split; [reflexivity|]. intros r H. cbn in H. injection H as <-. rewrite app_nil_r in AL. now subst.
  - cbn [eval_tag]. unfold h at 1 3 5. rewrite <- (SM don ks todo a ks' AL IA R). destruct (rd a ks) as [[t ok]|] eqn:Q; [|split; [reflexivity|discriminate]].
    destruct (ST don ks todo a t ok AL IA Q) as [-> I']. cbn [option_map obind negb andb]. specialize (IH (don ++ [ks]) (set_nth (length don) t a)). rewrite app_length in IH. cbn [length] in IH.
    replace (length don + 1) with (S (length don)) in IH by lia. apply IH; [now rewrite <- app_assoc|exact I'].
Qed.
Lemma tag_ext {A} (h : nat -> A -> list key -> option (A * bool)) : (forall i a l m, reordered l m -> h i a l = h i a m) ->
  forall l m, Forall2 reordered l m -> forall i a, eval_tag h i a l = eval_tag h i a m.
Proof. intros H. induction 1 as [|k k' l m R _ IH]; intros i a; [reflexivity|]. cbn [eval_tag]. rewrite (H i a k k' R). destruct (h i a k') as [[a' ok]|]; [|reflexivity]. cbn [obind]. destruct (andb _ _); [reflexivity|apply IH]. Qed.
Lemma nth_snoc {A} (l : list A) x k y : nth_error (l ++ [x]) k = Some y -> (k < length l /\ nth_error l k = Some y) \/ (k = length l /\ y = x).
Proof.
  intros H. destruct (Nat.lt_ge_cases k (length l)) as [C|C]; [left; rewrite nth_error_app1 in H by exact C; auto|]. right. rewrite nth_error_app2 in H by exact C.
  destruct (k - length l) as [|[|]] eqn:D; try discriminate. split; [lia|]. now injection H as <-.
Qed.
Definition named_slots {T} (nm : T -> option string) (don : list (list key)) (a : list T) : Prop :=
  forall k ks, nth_error don k = Some ks -> exists t, nth_error a k = Some t /\ forall n x, names_in ks = n ++ [x] -> nm t = Some x.
Lemma slots_step {T} (nm : T -> option string) don ks a t : length don < length a -> named_slots nm don a -> (forall n x, names_in ks = n ++ [x] -> nm t = Some x) ->
  named_slots nm (don ++ [ks]) (set_nth (length don) t a).
Proof.
  intros LT H Q k ks' K. destruct (nth_snoc _ _ _ _ K) as [[C K']|[-> ->]].
  - rewrite set_nth_other by lia. apply H. exact K'.
  - rewrite set_nth_same by exact LT. eauto.
Qed.
Lemma motors_same z z' : resolved z -> Forall2 reordered (z_motors z) (z_motors z') -> forall n, n = length (z_motors z) ->
  eval_tag motor_tag 0 (repeat (Slot None None) n) (z_motors z) = eval_tag motor_tag 0 (repeat (Slot None None) n) (z_motors z') /\
  (forall r, eval_tag motor_tag 0 (repeat (Slot None None) n) (z_motors z) = Some r -> named_slots (@s_name F) (z_motors z) r).
Proof.
  intros RS FR n ->.
  assert (FM : forall ks, In ks (z_motors z) -> Forall motor_fine ks).
  { intros ks Ik. apply Forall_forall. intros k Hk. destruct k; try exact I. exact (re_motor z RS _ _ Ik Hk). }
  destruct (tags_same (fun _ => motor_read) (z_motors z) (fun don a => length a = length (z_motors z) /\ named_slots (@s_name F) don a)) with (todo := z_motors z) (todo' := z_motors z') (don := @nil (list key)) (a := repeat (Slot (F := F) None None) (length (z_motors z))) as [A B].
  - intros don ks todo a t ok AL [LA NA] Q. assert (IK : In ks (z_motors z)) by (rewrite AL; apply in_or_app; right; left; reflexivity). split.
    + unfold motor_read in Q. destruct (eval_keys motor_key (Slot None None) ks) as [[s o]|] eqn:K; [|discriminate]. cbn [obind] in Q.
      assert (DK : Forall (does motor_key one) ks) by (eapply Forall_impl; [|exact (FM ks IK)]; apply motor_does).
      destruct (eval_does motor_key one ks DK _ _ _ I K) as [-> _]. destruct (s_kind s); [|discriminate]. cbn [obind] in Q. destruct (eval_keys mkind_key _ ks) as [[? ?]|]; [|discriminate]. now injection Q as _ <-.
    + split; [now rewrite set_nth_length|]. apply slots_step; [|exact NA|]. { rewrite LA, AL, app_length. cbn. lia. } intros n x. apply (motor_name ks t ok (FM ks IK) Q).
  - intros don ks todo a ks' AL _ R. apply motor_reordered; [exact R|]. intros t It. apply (re_motor z RS ks); [rewrite AL; apply in_or_app; right; left; reflexivity|exact It].
  - exact FR.
  - reflexivity.
  - split; [apply repeat_length|]. intros k ks K. destruct k; discriminate K.
  - split; [exact A|]. intros r Q. apply B in Q. apply Q.
Qed.
Lemma slot_found (a : list (mslot F)) k t x : nth_error a k = Some t -> s_name t = Some x -> slot_find a x <> None.
Proof.
  intros K Q C. unfold slot_find in C. pose proof (find_none _ _ C t (nth_error_In _ _ K)) as H. cbn in H. rewrite Q, String.eqb_refl in H. discriminate.
Qed.
Lemma named_set (a : list (rlink F)) i t x : In x (named (set_nth i t a)) -> In x (named a) \/ rl_name t = Some x.
Proof.
  unfold named. intros H. apply in_flat_map in H as (r & Ir & Hr). apply In_nth_error in Ir as (k & Hk). apply set_nth_some in Hk as [[_ ->]|[_ Hk]].
  - right. destruct (rl_name t) as [y|]; [|destruct Hr]. destruct Hr as [->|[]]. reflexivity.
  - left. apply in_flat_map. exists r. split; [eapply nth_error_In; eauto|exact Hr].
Qed.
Lemma links_same z z' arr : resolved z -> Forall2 reordered (z_links z) (z_links z') -> (forall ks s a, In ks (z_links z) -> In (KMotor s) ks -> arr = Some a -> slot_find a s <> None) ->
  forall a0, length a0 = length (z_links z) -> named a0 = [] ->
  eval_tag (link_tag (z_shapes z) arr) 0 a0 (z_links z) = eval_tag (link_tag (z_shapes z) arr) 0 a0 (z_links z') /\
  (forall r, eval_tag (link_tag (z_shapes z) arr) 0 a0 (z_links z) = Some r -> named_slots (@rl_name F) (z_links z) r).
Proof.
  intros RS FR HM a0 LA NA.
  assert (FJ : forall ks, In ks (z_links z) -> Forall (joint_fine arr) ks).
  { intros ks Ik. apply Forall_forall. intros k Hk. destruct k; try exact I. cbn [joint_fine]. intros a QA. eapply HM; eauto. }
  assert (FL : forall don ks todo names, z_links z = don ++ ks :: todo -> incl names (flat_map names_in don) -> Forall (link_fine names (z_shapes z)) ks).
  { intros don ks todo names AL IN_. assert (Ik : In ks (z_links z)) by (rewrite AL; apply in_or_app; right; left; reflexivity). apply Forall_forall. intros k Hk. destruct k; try exact I; cbn [link_fine].
    - intros C. apply IN_ in C. pose proof (re_names z RS) as ND. rewrite AL, flat_map_app in ND. cbn [flat_map] in ND. assert (CK : In s (names_in ks)) by (apply in_flat_map; exists (KName s); cbn; auto).
      revert ND C CK. generalize (flat_map names_in don) (names_in ks) (flat_map names_in todo). intros l1 l2 l3 ND C1 C2. induction l1 as [|y l1 IH]; [destruct C1|]. cbn [app] in ND. inversion ND as [|? ? NI ND']; subst.
      destruct C1 as [->|C1]; [apply NI, in_or_app; right; apply in_or_app; left; exact C2|exact (IH ND' C1)].
    - exact (re_joint z RS _ _ Ik Hk).
    - exact (re_shape z RS _ _ Ik Hk). }
  destruct (tags_same (fun a => link_read (named a) (z_shapes z) arr) (z_links z) (fun don a => length a = length (z_links z) /\ named_slots (@rl_name F) don a /\ incl (named a) (flat_map names_in don)))
    with (todo := z_links z) (todo' := z_links z') (don := @nil (list key)) (a := a0) as [A B].
  - intros don ks todo a t ok AL (LA' & NS & IN_) Q. destruct (link_name _ _ _ _ _ _ (FL don ks todo _ AL IN_) Q) as (-> & N1 & N2). split; [reflexivity|]. split; [now rewrite set_nth_length|]. split.
    + apply slots_step; [|exact NS|exact N2]. rewrite LA', AL, app_length. cbn. lia.
    + intros x Hx. rewrite flat_map_app. apply in_or_app. destruct (named_set _ _ _ _ Hx) as [C|C]; [left; now apply IN_|right]. cbn [flat_map]. rewrite app_nil_r. now apply N1.
  - intros don ks todo a ks' AL (_ & _ & IN_) R. apply link_reordered; [exact R|exact (FL don ks todo _ AL IN_)|]. apply FJ. rewrite AL. apply in_or_app. right. left. reflexivity.
  - exact FR.
  - reflexivity.
  - split; [exact LA|]. split; [intros k ks K; destruct k; discriminate K|]. rewrite NA. intros x [].
  - split; [exact A|]. intros r Q. apply B in Q. apply Q.
Qed.
Lemma connect_names (l : list (list key)) : forall i (h h' : list (link F)), eval_tag connect_tag i h l = Some h' -> map l_name h' = map l_name h.
Proof.
  intros i h h' H. apply (eval_tag_inv (fun g => map l_name g = map l_name h) connect_tag) with (l := l) (i := i) (s := h); [|reflexivity|exact H].
  intros j s k s' ok P Q. unfold connect_tag in Q. apply (eval_keys_inv (fun g => map l_name g = map l_name h) (connect_key j)) with (l := k) (s := s) (ok := ok); [|exact P|exact Q].
  intros s0 k0 s1 ok0 P0 Q0. destruct k0; cbn [connect_key] in Q0; try (injection Q0 as <- _; exact P0). destruct (find_name _ _) as [p|]; [|injection Q0 as <- _; exact P0].
  unfold okay in Q0. destruct (add_child s0 p j) as [g|] eqn:AC; [|discriminate]. injection Q0 as <- _. rewrite (add_child_names _ _ _ _ AC). exact P0.
Qed.
Lemma named_repeat (r : rlink F) n : rl_name r = None -> named (repeat r n) = [].
Proof. intros H. induction n as [|n IH]; [reflexivity|]. cbn. now rewrite H. Qed.

Lemma same_length {A B} (R : A -> B -> Prop) l m : Forall2 R l m -> length m = length l.
Proof. induction 1; cbn; congruence. Qed.

(** ** C103 *)
(** Reading a chain file does not depend on the order of the keys within sections. *)
Theorem C103_order (g : F) (z z' : ztk F) : resolved z -> reordered_file z z' -> robot_read g z' = robot_read g z.
Proof.
  intros RS (RC & SH & RM & RK & RI). symmetry. unfold robot_read. rewrite SH.
  destruct (z_links z) as [|l0 ls] eqn:LZ. { inversion RK; subst. reflexivity. }
  destruct (z_links z') as [|l0' ls'] eqn:LZ'. { inversion RK. }
  rewrite <- LZ, <- LZ' in RK. rewrite <- LZ, <- LZ'.
  assert (LM : length (z_motors z') = length (z_motors z)) by (eapply same_length; eauto). assert (LL : length (z_links z') = length (z_links z)) by (eapply same_length; eauto). rewrite LL.
  destruct (motors_same z z' RS RM _ eq_refl) as [MS MN].
  match goal with |- obind ?x _ = obind ?y _ => assert (MA : x = y) end.
  { destruct (z_motors z) as [|m ms]; destruct (z_motors z') as [|m' ms']; try discriminate LM; [reflexivity|]. cbv zeta. rewrite LM. now rewrite MS. }
  rewrite <- MA. destruct (match z_motors z with [] => Some None | _ => _ end) as [arr|] eqn:QA; [|reflexivity]. cbn [obind].
  destruct (links_same z z' arr RS RK) with (a0 := repeat (RL (F := F) None None body_zeroed (Fr v3zero m3zero)) (length (z_links z))) as [LS LN].
  - intros ks s a Ik Is QS. destruct (re_drive z RS ks s Ik Is) as (ms & n & Im & NQ). apply In_nth_error in Im as (k & Hk).
    destruct (z_motors z) as [|m0 mr] eqn:MZ; [destruct k; discriminate|]. subst arr. destruct (eval_tag motor_tag 0 _ (m0 :: mr)) as [r|] eqn:ET; [|discriminate]. injection QA as ->.
    destruct (MN a eq_refl k ms Hk) as (t & Ht & NT). eapply slot_found; eauto.
  - apply repeat_length.
  - apply named_repeat. reflexivity.
  - rewrite <- LS. destruct (eval_tag (link_tag (z_shapes z) arr) 0 _ (z_links z)) as [a|] eqn:QL; [|reflexivity]. cbn [obind]. destruct (omap link_done a) as [h|] eqn:QD; [|reflexivity]. cbn [obind].
    rewrite (tag_ext connect_tag (fun i a l m R => connect_reordered i l m R a) _ _ RK). destruct (eval_tag connect_tag 0 h (z_links z')) as [h1|] eqn:QC; [|reflexivity]. cbn [obind].
    rewrite (chain_reordered _ _ RC). destruct (eval_keys chain_key None (z_chain z')) as [[nm ?]|]; [|reflexivity]. cbn [obind].
    rewrite (init_reordered (map l_name h1) (z_init z) (z_init z') h1 RI); [reflexivity| |reflexivity].
    apply Forall_forall. intros k Hk. destruct k; try exact I. cbn [init_fine]. destruct (re_init z RS _ _ Hk) as (ls0 & n & IL & NQ). apply In_nth_error in IL as (i & Hi).
    destruct (LN a eq_refl i ls0 Hi) as (t & Ht & NT). specialize (NT _ _ NQ). rewrite (connect_names _ _ _ _ QC).
    clear -QD Ht NT. revert i h QD Ht. induction a as [|r a IH]; intros [|i] h QD Ht; try discriminate Ht; cbn [omap] in QD.
    + injection Ht as ->. unfold link_done in QD at 1. destruct (rl_joint t); [|discriminate]. cbn [option_map obind] in QD. destruct (omap link_done a); [|discriminate]. injection QD as <-. left. cbn. now rewrite NT.
    + destruct (link_done r); [|discriminate]. cbn [obind] in QD. destruct (omap link_done a) as [h0|]; [|discriminate]. injection QD as <-. right. eapply IH; [reflexivity|exact Ht].
Qed.
(** To the end of the section. *)
Lemma reordered_cons (k : key) l m : reordered l m -> reordered (k :: l) (k :: m).
Proof. induction 1 as [l|l a b m C|l m n _ IH1 _ IH2]; [constructor|exact (ro_swap (k :: l) a b m C)|eapply ro_trans; eauto]. Qed.
Lemma reordered_last (a : key) l m : forallb (fun k => negb (clash a k)) l = true -> reordered l m -> reordered (a :: l) (m ++ [a]).
Proof.
  intros H R. apply ro_trans with (a :: m); [now apply reordered_cons|]. assert (H' : forallb (fun k => negb (clash a k)) m = true).
  { apply forallb_forall. intros k Ik. rewrite forallb_forall in H. apply H. eapply Permutation_in; [apply Permutation_sym, reordered_perm; exact R|exact Ik]. }
  clear H R. induction m as [|b m IH]; [constructor|]. cbn [forallb] in H'. apply andb_prop in H' as [H1 H2]. apply ro_trans with (b :: a :: m).
  - apply (ro_swap []). now destruct (clash a b).
  - apply reordered_cons. exact (IH H2).
Qed.
End Thm.

(** ** Examples and witnesses *)
Local Open Scope nat_scope.
Definition omot : list (key Qc) := [KName "m"; KType "trq"; KMax [Some (qz 5)]].
Definition oarm : list (key Qc) := [KMax [Some (qz 1)]; KDis [qz 0]; KMotor "m"; KParent "a"; KPos (V3 (qz 0) (qz 1) (qz 0))].
Definition ofile : ztk Qc := Ztk [KName "r"] ["s"%string] [omot] [[KName "a"; KShape "s"; KMass (qz 3); KStuff "steel"]; KName "b" :: KJointType "prismatic" :: oarm] [KPos (V3 (qz 4) (qz 0) (qz 0)); KJoint "b" [qz 7]].
(** Names, types and the mass after the keys that depend on them. *)
Definition ofile' : ztk Qc := Ztk [KName "r"] ["s"%string] [[KMax [Some (qz 5)]; KType "trq"; KName "m"]] [[KStuff "steel"; KMass (qz 3); KShape "s"; KName "a"]; oarm ++ [KJointType "prismatic"; KName "b"%string]]
  [KJoint "b" [qz 7]; KPos (V3 (qz 4) (qz 0) (qz 0))].
Lemma some_triple {A B C} (a a' : A) (b b' : B) (c c' : C) : Some (a, b, c) = Some (a', b', c') -> a = a' /\ b = b' /\ c = c'.
Proof. intros H. injection H as -> -> ->. auto. Qed.
Local Ltac pick H := repeat (destruct H as [H|H]; [try discriminate H|]); try contradiction.
Example C103_ex_meant : resolved ofile /\ reordered_file ofile ofile'.
Proof.
  split; constructor; cbn [z_motors z_links z_shapes z_init ofile].
  - intros ks t [<-|[]] [H|[H|[H|[]]]]; try discriminate H. injection H as <-. discriminate.
  - repeat constructor; cbn; intuition discriminate.
  - intros ks t [<-|[<-|[]]] H; cbn in H; pick H; injection H as <-. discriminate.
  - intros ks t [<-|[<-|[]]] H; cbn in H; pick H; injection H as <-. cbn. auto.
  - intros ks t [<-|[<-|[]]] H; cbn in H; pick H; injection H as <-. exists omot, []. split; [left; reflexivity|reflexivity].
  - intros t d [H|[H|[]]]; [discriminate H|]. injection H as <- _. eexists (_ :: _), []. split; [right; left; reflexivity|reflexivity].
  - constructor.
  - split; [reflexivity|]. split; [constructor; [|constructor]|]; [|split; [constructor; [|constructor; [|constructor]]|]]; cbn [z_motors z_links z_init ofile'].
    + apply (reordered_last _ _ [_; _]); [reflexivity|]. apply (reordered_last _ _ [_]); [reflexivity|constructor].
    + apply (reordered_last _ _ [_; _; _]); [reflexivity|]. apply (reordered_last _ _ [_; _]); [reflexivity|]. apply (reordered_last _ _ [_]); [reflexivity|constructor].
    + apply (reordered_last _ _ (oarm ++ [_])); [reflexivity|]. apply (reordered_last _ _ oarm); [reflexivity|constructor].
    + apply (reordered_last _ _ [_]); [reflexivity|constructor].
Qed.
Definition oview (o : option (robot Qc)) : option (list (list Qc) * list (list nat) * list string) :=
  option_map (fun rb => ([c_mass (rb_chain rb)] :: map (fun l => joint_get_dis (l_joint l)) (c_links (rb_chain rb)), map (fun l => b_shapes (l_body l)) (c_links (rb_chain rb)), map l_name (c_links (rb_chain rb)))) o.
(** The mass is 3 and the arm is stopped by its limit at 1. *)
Example C103_ex (Z : ZtkLib) : exists rb, robot_read (qz 10) ofile' = Some (Some rb) /\
  match oview (Some rb) with Some (a, b, c) => map (map this) a = map (map this) [[qz 3]; []; [qz 1]] /\ b = [[0]; []] /\ c = ["a"; "b"]%string | None => False end.
Proof.
  rewrite (C103_order (qz 10) ofile ofile' (proj1 C103_ex_meant) (proj2 C103_ex_meant)).
  destruct (view_some (fun o => match oview o with Some (a, b, c) => Some (map (map this) a, b, c) | None => None end) (robot_read (qz 10) ofile) (Some (map (map this) [[qz 3]; []; [qz 1]], [[0]; []], ["a"; "b"]%string))) as (o & R & V).
  { destruct Z as [n [] []]; vm_compute; reflexivity. }
  destruct o as [rb|]; [|discriminate V]. exists rb. split; [exact R|]. destruct (oview (Some rb)) as [[[a b] c]|]; [|discriminate V]. apply some_triple in V. destruct V as (-> & -> & ->). auto.
Qed.

(** A displacement is clamped to the limits read so far: a displacement of 5 under a limit of 2 is 2 when the limit comes
    first and 5 when it comes last. *)
Definition osec (ks : list (key Qc)) : ztk Qc := Ztk [KName "r"] ["s"%string] [] [KName "a"%string :: ks] [].
Definition odis (Z : ZtkLib) (ks : list (key Qc)) : option (list (list Q)) :=
  match robot_read (qz 10) (osec ks) with Some (Some rb) => Some (map (fun l => map this (joint_get_dis (l_joint l))) (c_links (rb_chain rb))) | _ => None end.
Theorem C103_limits_refuted (Z : ZtkLib) :
  exists ks ks', Permutation ks ks' /\ resolved (osec ks) /\ odis Z ks = Some [[this (qz 2)]] /\ odis Z ks' = Some [[this (qz 5)]].
Proof.
  exists [KJointType "prismatic"; KMax [Some (qz 2)]; KDis [qz 5]], [KJointType "prismatic"; KDis [qz 5]; KMax [Some (qz 2)]].
  split; [apply perm_skip, perm_swap|]. split; [|destruct Z as [n [] []]; split; vm_compute; reflexivity].
  constructor; cbn [z_motors z_links z_shapes z_init osec].
  - intros ks t [].
  - repeat constructor; cbn; intuition discriminate.
  - intros ks t [<-|[]] H; cbn in H; pick H; injection H as <-. discriminate.
  - intros ks t [<-|[]] H; cbn in H; pick H; injection H as <-.
  - intros ks t [<-|[]] H; cbn in H; pick H; injection H as <-.
  - intros t d [].
Qed.
(** When a key that fails ends its section, the keys written after it are not read: an unknown shape before or after the
    mass makes the mass 0 or 3. *)
Definition omass (Z : ZtkLib) (ks : list (key Qc)) : option (list Q) :=
  match robot_read (qz 10) (osec ks) with Some (Some rb) => Some (map (fun l => this (mp_mass (b_mp (l_body l)))) (c_links (rb_chain rb))) | _ => None end.
Theorem C103_unresolved_refuted :
  exists Z ks ks', reordered ks ks' /\ omass Z ks = Some [this (qz 3)] /\ omass Z ks' = Some [this (qz 0)].
Proof.
  exists (mkZtkLib "?" false true), [KJointType "fixed"; KMass (qz 3); KShape "x"], [KJointType "fixed"; KShape "x"; KMass (qz 3)].
  split; [apply (ro_swap [KJointType "fixed"] (KMass (qz 3)) (KShape "x") []); reflexivity|]. split; vm_compute; reflexivity.
Qed.

Print Assumptions C103_order.
Print Assumptions C103_limits_refuted.
Print Assumptions C103_unresolved_refuted.
