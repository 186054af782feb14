(** * Tools_Properties: the contact section of rk_ground (C95) and the files ikcell_merge puts together (C96). *)
From Coq Require Import String ZArith QArith Qcanon Reals Lra List Arith Lia Bool Field.
From Verif Require Import Num NumFacts Vec VecFacts Motor_Model Joint_Model ExtQ ExtR Body_Model Contact_Model Contact_Properties Conf_Model Conf_Proofs Conf_R Conf_Q IK_Model IKConf_Model Tools_Model.
Import ListNotations.

(** ** C95: rk_ground *)

(** A spring of stiffness k carries the mass at the depth. *)
Definition carries (g m k depth : R) : Prop := (k * depth = m * g)%R.
(** Free motions of the mass on the spring and damper, m x'' + c x' + k x = 0, that do not oscillate: exponentials. *)
Definition decays (m k c : R) : Prop := exists s : R, (m * (s * s) + c * s + k = 0)%R.

Lemma carray_print_one {F} (c : cinfo F) f : carray_print [c] = Some f -> exists ks, f = [ks] /\ cinfo_print c = Some ks.
Proof. cbn [carray_print]. destruct (cinfo_print c) as [k|]; [|discriminate]. intros H. injection H as <-. eauto. Qed.
(** For a mass and a depth above zero the section printed describes, to whoever reads it, an elastic contact that carries the mass at the depth, with
    friction coefficients as given; the mass swings on it exactly when the damping coefficient is less than 1 in magnitude. *)
Theorem C95_ground : forall (g m d z ms mu : R) t rest, (0 < g)%R -> (0 < m)%R -> (0 < d)%R -> ntiny x_tol d = false ->
  exists ks k c w, rk_ground g (Some t) (m :: d :: z :: ms :: mu :: rest) = Some (GSection ks) /\
    carray_read [ks] = Some (Some ([CI (Some t) (Some t) CElastic k c ms mu], w)) /\
    (0 < k)%R /\ carries g m k d /\ (c * c = 4 * (z * z) * (k * m))%R /\ (0 <= c * z)%R /\ (decays m k c <-> (1 <= z * z)%R).
Proof.
  intros g m d z ms mu t rest G M D T. set (k := (m * g / d)%R). set (c := (2 * z * sqrt (k * m))%R).
  assert (KP : (0 < k)%R) by (unfold k; apply Rdiv_lt_0_compat; [now apply Rmult_lt_0_compat|exact D]).
  assert (KM : (0 < k * m)%R) by now apply Rmult_lt_0_compat.
  assert (SQ : (sqrt (k * m) * sqrt (k * m) = k * m)%R) by (apply sqrt_sqrt; lra).
  assert (NN : nltb (k * m)%R 0%R = false).
  { destruct (nltb (k * m)%R 0%R) eqn:Q; [|reflexivity]. apply (proj1 (nltb_lt _ _)) in Q. apply rnlt in Q. lra. }
  destruct (C64_round_trip [CI (Some t) (Some t) CElastic k c ms mu]) as (f & w & A & B); [discriminate|repeat constructor; discriminate|].
  assert (Q : exists ks, f = [ks]) by (destruct (carray_print_one _ _ A) as (ks & H & _); eauto). destruct Q as (ks & ->).
  exists ks, k, c, w. split.
  { destruct (carray_print_one _ _ A) as (ks' & H & P). injection H as <-.
    transitivity (if ntiny x_tol d then Some (@GRigid R) else if nltb (k * m)%R 0%R then None else option_map (@GSection R) (cinfo_print (CI (Some t) (Some t) CElastic k c ms mu))); [reflexivity|].
    now rewrite T, NN, P. }
  split; [exact B|]. split; [exact KP|]. split; [unfold carries, k; field; lra|].
  assert (CC : (c * c = 4 * (z * z) * (k * m))%R) by (unfold c; replace (2 * z * sqrt (k * m) * (2 * z * sqrt (k * m)))%R with (4 * (z * z) * (sqrt (k * m) * sqrt (k * m)))%R by ring; now rewrite SQ).
  split; [exact CC|]. split.
  { unfold c. replace (2 * z * sqrt (k * m) * z)%R with (2 * (z * z) * sqrt (k * m))%R by ring. apply Rmult_le_pos; [|apply sqrt_pos]. pose proof (Rle_0_sqr z) as H. unfold Rsqr in H. lra. }
  assert (DE : (c * c - 4 * m * k = 4 * (k * m) * (z * z - 1))%R) by (rewrite CC; ring).
  split.
  - intros (s & H). assert (S : ((2 * m * s + c) * (2 * m * s + c) = c * c - 4 * m * k)%R).
    { replace ((2 * m * s + c) * (2 * m * s + c))%R with (c * c - 4 * m * k + 4 * m * (m * (s * s) + c * s + k))%R by ring. rewrite H. ring. }
    pose proof (Rle_0_sqr (2 * m * s + c)) as P. unfold Rsqr in P. rewrite S, DE in P. destruct (Rle_dec 1 (z * z)) as [|N0]; [assumption|exfalso].
    assert (0 < 4 * (k * m) * (1 - z * z))%R by (apply Rmult_lt_0_compat; lra). lra.
  - intros Z1. assert (P : (0 <= c * c - 4 * m * k)%R) by (rewrite DE; apply Rmult_le_pos; lra).
    exists ((- c + sqrt (c * c - 4 * m * k)) / (2 * m))%R. set (r := sqrt (c * c - 4 * m * k)). assert (RR : (r * r = c * c - 4 * m * k)%R) by (apply sqrt_sqrt; exact P).
    replace (m * ((- c + r) / (2 * m) * ((- c + r) / (2 * m))) + c * ((- c + r) / (2 * m)) + k)%R with ((r * r - (c * c - 4 * m * k)) / (4 * m))%R by (field; lra).
    rewrite RR. field. lra.
Qed.
Lemma big_depth : ntiny x_tol 1%R = false.
Proof. apply Conf_Proofs.ntiny_big. apply rnle. cbn. lra. Qed.
(** Mass 2, depth 1, gravity 9, critical damping: k = 18, c = 12. *)
Example C95_ex : exists ks k c w, rk_ground 9%R (Some "(null)"%string) [2; 1; 1; 0; 0]%R = Some (GSection ks) /\
  carray_read [ks] = Some (Some ([CI (Some "(null)"%string) (Some "(null)"%string) CElastic k c 0%R 0%R], w)) /\ (k = 18)%R /\ (c * c = 144)%R /\ decays 2 k c.
Proof.
  destruct (C95_ground 9 2 1 1 0 0 "(null)"%string []) as (ks & k & c & w & A & B & _ & D & G & _ & H); [lra|lra|lra|exact big_depth|].
  exists ks, k, c, w. split; [exact A|]. split; [exact B|]. unfold carries in D. assert (k = 18)%R by lra. split; [assumption|]. split; [rewrite G; subst k; ring|]. apply H. lra.
Qed.
(** The check of the number of arguments lets four pass, and the fifth is then read from a null pointer. *)
Theorem C95_arguments_refuted : ~ (forall (g : Qc) t args, rk_ground g (Some t) args = None -> (5 <= List.length args)%nat).
Proof. intros H. specialize (H (qz 9) "s"%string [qz 1; qz 1; qz 1; qz 1] eq_refl). cbn in H. lia. Qed.
(** Depths below zero are not refused; the viscosity is then no number. *)
Theorem C95_depth_refuted : ~ (forall (g m d z ms mu : Qc) t, (0 < m)%num -> rk_ground g (Some t) [m; d; z; ms; mu] <> None).
Proof. intros H. refine (H (qz 9) (qz 1) (qz (-1)) (qz 1) (qz 1) (qz 1) "s"%string _ _); [apply (proj1 (nltb_lt _ _)); vm_compute; reflexivity|vm_compute; reflexivity]. Qed.
(** The section names no pair of stuff: the names are null pointers, and where printing these is undefined the program has
    no defined result with any numbers. *)
Theorem C95_names_refuted : forall (g : Qc) args ks, rk_ground g None args <> Some (GSection ks).
Proof.
  intros g args ks Q. destruct args as [|m [|d [|z [|ms [|mu rest]]]]]; cbn [rk_ground] in Q; try discriminate Q. destruct (ntiny x_tol d); [discriminate Q|]. cbv zeta in Q. destruct (nltb _ _); discriminate Q.
Qed.

(** ** C96: ikcell_merge *)
Section Merge.
Context {F : Type} (as_int : F -> option nat) (of_nat : nat -> F).
(** A record of a seed file: entries with a number, a weight and three values. *)
Record seed := Seed { sd_entry : nat; sd_w : F; sd_v : vec3 F }.
Definition seed_text (e : seed) : list F := [of_nat (sd_entry e); sd_w e; vx (sd_v e); vy (sd_v e); vz (sd_v e)].
Definition record_text (r : list seed) : list F := of_nat (length r) :: flat_map seed_text r.
Definition file_text (f : list (list seed)) : list F := flat_map record_text f.
(** The records of all files at place t, one after the other. *)
Definition at_place (t : nat) (fs : list (list (list seed))) : list seed := flat_map (fun f => nth t f []) fs.
Definition shortest (fs : list (list (list seed))) (n : nat) : Prop := (forall f, In f fs -> n <= length f)%nat /\ exists f, In f fs /\ length f = n.

Context (as_of : forall n, as_int (of_nat n) = Some n).
Lemma copy_entries_text (r : list seed) : forall t, copy_entries as_int of_nat (length r) (flat_map seed_text r ++ t) = Some (flat_map seed_text r, t).
Proof.
  induction r as [|e r IH]; intros t; [reflexivity|]. cbn [length flat_map copy_entries]. unfold seed_text at 1. cbn [app rd_int]. rewrite as_of. cbn [option_map]. rewrite IH. reflexivity.
Qed.
Lemma heads_end (fs : list (list (list seed))) : (exists f, In f fs /\ f = []) -> heads as_int (map file_text fs) = Some None.
Proof.
  induction fs as [|f fs IH]; intros (g & I & G); [destruct I|]. cbn [map heads]. destruct f as [|r f]; [reflexivity|].
  change (file_text (r :: f)) with (of_nat (length r) :: (flat_map seed_text r ++ file_text f)). cbn [rd_int]. rewrite as_of. cbn [option_map].
  rewrite IH; [reflexivity|]. destruct I as [<-|I]; [discriminate G|]. eauto.
Qed.
Lemma heads_go (fs : list (list (list seed))) : (forall f, In f fs -> f <> []) ->
  exists hs, heads as_int (map file_text fs) = Some (Some hs) /\ map fst hs = map (fun f => length (nth 0 f [])) fs /\
    copy_all as_int of_nat hs = Some (flat_map seed_text (at_place 0 fs), map file_text (map (@tl _) fs)).
Proof.
  induction fs as [|f fs IH]; intros NE; [exists []; repeat split|]. destruct f as [|r f]; [destruct (NE [] (or_introl eq_refl) eq_refl)|].
  destruct IH as (hs & A & B & D); [intros g I; apply NE; now right|].
  exists ((length r, flat_map seed_text r ++ file_text f) :: hs). cbn [map heads]. split; [|split].
  - change (file_text (r :: f)) with (of_nat (length r) :: (flat_map seed_text r ++ file_text f)). cbn [rd_int]. rewrite as_of. cbn [option_map]. rewrite A. reflexivity.
  - cbn [map fst]. rewrite B. reflexivity.
  - cbn [copy_all]. rewrite copy_entries_text, D. cbn [option_map tl]. unfold at_place. cbn [flat_map nth]. now rewrite flat_map_app.
Qed.
Lemma sum_lengths (fs : list (list (list seed))) : list_sum (map (fun f => length (nth 0 f [])) fs) = length (at_place 0 fs).
Proof. unfold at_place. induction fs as [|f fs IH]; [reflexivity|]. cbn [map list_sum fold_right flat_map]. rewrite app_length. unfold list_sum in IH. now rewrite <- IH. Qed.
Lemma at_place_tl t (fs : list (list (list seed))) : at_place t (map (@tl _) fs) = at_place (S t) fs.
Proof. unfold at_place. induction fs as [|f fs IH]; [reflexivity|]. cbn [map flat_map]. rewrite IH. f_equal. destruct f; [destruct t|]; reflexivity. Qed.
Lemma shortest_ex (fs : list (list (list seed))) : fs <> [] -> exists n, shortest fs n.
Proof.
  induction fs as [|f fs IH]; [congruence|]. intros _. destruct fs as [|g fs].
  - exists (length f). split; [intros h [<-|[]]; lia|]. exists f. cbn. auto.
  - destruct IH as (n & A & h & I & B); [discriminate|]. exists (Nat.min (length f) n). split.
    + intros k [<-|Hk]; [lia|]. specialize (A k Hk). lia.
    + destruct (Nat.min_spec (length f) n) as [[_ Q]|[_ Q]]; rewrite Q; [exists f; split; [now left|reflexivity]|exists h; split; [now right|exact B]].
Qed.
(** The files merge into a seed file as long as the shortest of them, whose records are those of all files at the same place,
    in the order of the files. *)
Theorem C96_merge : forall (fs : list (list (list seed))) n fuel, shortest fs n -> (n < fuel)%nat ->
  merge_exec as_int of_nat fuel (map file_text fs) = Some (map (fun t => record_text (at_place t fs)) (seq 0 n)).
Proof.
  intros fs n. revert fs. induction n as [|n IH]; intros fs fuel (LE & f & I & LF) LT; (destruct fuel as [|fuel]; [lia|]); cbn [merge_exec].
  - rewrite heads_end; [reflexivity|]. exists f. split; [exact I|]. now apply length_zero_iff_nil.
  - destruct (heads_go fs) as (hs & A & B & D); [intros g Hg Q; specialize (LE g Hg); subst g; cbn in LE; lia|]. rewrite A, D, B, sum_lengths.
    rewrite (IH (map (@tl _) fs)); [| |lia].
    + cbn [option_map seq map]. unfold record_text at 2. rewrite <- seq_shift, map_map. do 2 f_equal. apply map_ext. intros t. now rewrite at_place_tl.
    + split.
      * intros g Hg. apply in_map_iff in Hg as (h & <- & Hh). specialize (LE h Hh). destruct h; cbn in *; lia.
      * exists (tl f). split; [now apply in_map|]. destruct f; cbn in *; lia.
Qed.
(** Merging in two stages, by way of a file with what was printed, comes to the same. *)
Theorem C96_stages : forall (fs : list (list (list seed))) g rows fuel, fs <> [] -> (length g < fuel)%nat -> (forall f, In f fs -> length f < fuel)%nat ->
  merge_exec as_int of_nat fuel (map file_text fs) = Some rows ->
  merge_exec as_int of_nat fuel [concat rows; file_text g] = merge_exec as_int of_nat fuel (map file_text (fs ++ [g])).
Proof.
  intros fs g rows fuel NE LG LF H. destruct (shortest_ex fs NE) as (n & S). assert (LN : (n < fuel)%nat) by (destruct S as [_ (f & I & <-)]; auto).
  rewrite (C96_merge fs n fuel S LN) in H. injection H as <-.
  set (m := map (fun t => at_place t fs) (seq 0 n)). assert (LM : length m = n) by (unfold m; now rewrite map_length, seq_length).
  replace (concat (map (fun t => record_text (at_place t fs)) (seq 0 n))) with (file_text m) by (unfold file_text, m; rewrite flat_map_concat_map, map_map; reflexivity).
  assert (S1 : shortest [m; g] (Nat.min n (length g))).
  { split; [intros f [<-|[<-|[]]]; lia|]. destruct (Nat.min_spec n (length g)) as [[_ Q]|[_ Q]]; rewrite Q; [exists m|exists g]; cbn; auto. }
  assert (S2 : shortest (fs ++ [g]) (Nat.min n (length g))).
  { destruct S as [S3 (f & I & LE)]. split; [intros k Hk; apply in_app_or in Hk as [Hk|[<-|[]]]; [specialize (S3 k Hk)|]; lia|].
    destruct (Nat.min_spec n (length g)) as [[_ Q]|[_ Q]]; rewrite Q; [exists f|exists g]; (split; [apply in_or_app; cbn; auto|auto]). }
  pose proof (C96_merge [m; g] _ fuel S1 ltac:(lia)) as M1. cbn [map] in M1. rewrite M1. rewrite (C96_merge _ _ fuel S2) by lia. f_equal. apply map_ext_in. intros t Ht. apply in_seq in Ht.
  f_equal. unfold at_place. rewrite flat_map_app. cbn [flat_map]. rewrite !app_nil_r. f_equal.
  unfold m. rewrite (nth_indep _ [] (at_place 0 fs)) by (rewrite map_length, seq_length; lia). rewrite (map_nth (fun t => at_place t fs)), seq_nth by lia. reflexivity.
Qed.
End Merge.

Definition qint (x : Qc) : option nat := if Pos.eqb (Qden x) 1 then (if Z.leb 0 (Qnum x) then Some (Z.to_nat (Qnum x)) else None) else None.
Definition qnat (n : nat) : Qc := qz (Z.of_nat n).
Lemma qint_nat n : qint (qnat n) = Some n.
Proof.
  unfold qint, qnat, qz. assert (T : this (Q2Qc (inject_Z (Z.of_nat n))) = inject_Z (Z.of_nat n)).
  { cbn [this Q2Qc]. unfold inject_Z, Qred. pose proof (Z.ggcd_correct_divisors (Z.of_nat n) 1) as H. pose proof (Z.ggcd_gcd (Z.of_nat n) 1) as G.
    destruct (Z.ggcd (Z.of_nat n) 1) as (g, (a, b)). cbn [fst snd] in *. rewrite Z.gcd_1_r in G. subst g. destruct H as [H1 H2]. rewrite Z.mul_1_l in *. subst a b. reflexivity. }
  rewrite T. cbn [Qden Qnum inject_Z]. rewrite Pos.eqb_refl. replace (0 <=? Z.of_nat n)%Z with true by (symmetry; apply Z.leb_le; lia). now rewrite Nat2Z.id.
Qed.
Definition s_ (k : nat) : seed := Seed k (qz 1) (V3 (qz 2) (qz 3) (qz 4)).
Definition two_files : list (list (list seed)) := [[[s_ 0]; [s_ 1; s_ 2]; [s_ 3]]; [[s_ 7]; []]].
Example C96_ex : merge_exec qint qnat 5 (map (file_text qnat) two_files) =
  Some [record_text qnat [s_ 0; s_ 7]; record_text qnat [s_ 1; s_ 2]].
Proof. rewrite (C96_merge qint qnat qint_nat two_files 2); [reflexivity| |lia]. split; [intros f [<-|[<-|[]]]; cbn; lia|]. exists [[s_ 7]; []]. split; [right; now left|reflexivity]. Qed.
(** Sequence files as the library writes them now, with the time step first and three weights per entry, do not pass: not even
    one file alone is copied. *)
Definition num_text (x : num Qc) : Qc := match x with NI n => qnat n | NF x => x end.
Definition sequences_merge : Prop := forall (q : list (seqcell Qc)) fuel, (List.length (seq_print q) < fuel)%nat ->
  exists rows, merge_exec qint qnat fuel [map num_text (seq_print q)] = Some rows /\ concat rows = map num_text (seq_print q).
Theorem C96_sequence_refuted : ~ sequences_merge.
Proof.
  intros H. destruct (H [SeqCell (qz 1) [Entry 0 (V3 (qz 1) (qz 1) (qz 1)) (V3 (qz 3) (qz 0) (qz 3))]] 20%nat) as (rows & A & _); [cbn; lia|]. vm_compute in A. discriminate A.
Qed.

Print Assumptions C95_ground.
Print Assumptions C95_arguments_refuted.
Print Assumptions C95_depth_refuted.
Print Assumptions C95_names_refuted.
Print Assumptions C96_merge.
Print Assumptions C96_stages.
Print Assumptions C96_sequence_refuted.
