(** * IK_Gauss: an executable instance of the external functions of the solver, and proof that the laws
    assumed of the linear equation solver can be met over any ordered field. *)
From Coq Require Import Bool List Arith Lia Field ZArith QArith Qcanon.
From Verif Require Import Num NumFacts Vec Motor_Model Joint_Model ExtQ Body_Model Tree Link_Model Jacobi_Model IK_Model IK_Laws.
Import ListNotations.

Section Gauss.
Context {F : Type} {N : Num F} {L : NumLaws F N}.
Add Field FFieldG : num_field.
Local Open Scope num_scope.

Definition nz (x : F) : bool := negb (andb (nleb x 0) (nleb 0 x)).
Lemma nz_false x : nz x = false -> x = 0.
Proof. unfold nz. rewrite negb_false_iff, andb_true_iff. intros [A B]. now apply nle_antisym. Qed.
Lemma nz_true x : nz x = true -> x <> 0.
Proof. intros H ->. unfold nz in H. rewrite (nle_refl (0:F)) in H. discriminate. Qed.

(** A row of coefficients with its right-hand side. *)
Definition arow := (list F * F)%type.
Definition lead (r : arow) : F := match fst r with a :: _ => a | [] => 0 end.
Fixpoint pivot (l : list arow) : option (arow * list arow) :=
  match l with
  | [] => None
  | r :: t => if nz (lead r) then Some (r, t) else option_map (fun q => (fst q, r :: snd q)) (pivot t)
  end.
Fixpoint axpy (k : F) (a b : list F) : list F :=
  match a, b with x :: a', y :: b' => (x - k * y) :: axpy k a' b' | _, _ => [] end.
Definition reduce (p r : arow) : arow :=
  (axpy (lead r / lead p) (tl (fst r)) (tl (fst p)), snd r - lead r / lead p * snd p).
Fixpoint gsolve (n : nat) (l : list arow) : option (list F) :=
  match n with
  | O => Some []
  | S n => match pivot l with
           | None => None
           | Some (p, t) => option_map (fun x => (snd p - dot (tl (fst p)) x) / lead p :: x) (gsolve n (map (reduce p) t))
           end
  end.
Definition gauss (a : list (list F)) (b : list F) : option (list F) := gsolve (length b) (combine a b).

Lemma dot_axpy k a : forall b x, length a = length x -> length b = length x -> dot (axpy k a b) x = dot a x - k * dot b x.
Proof.
  induction a as [|y a IH]; intros [|z b] [|w x] A B; cbn in *; try discriminate; try ring. rewrite IH by lia. ring.
Qed.
Lemma axpy_len k a : forall b, length a = length b -> length (axpy k a b) = length b.
Proof. induction a as [|y a IH]; intros [|z b] A; cbn in *; try discriminate; auto. Qed.
Lemma dot_zeros_r n : forall a, dot a (zeros n) = (0 : F).
Proof. induction n as [|n IH]; intros [|y a]; cbn; auto. unfold zeros in IH. rewrite IH. ring. Qed.

Definition wide (n : nat) (l : list arow) : Prop := Forall (fun r => length (fst r) = n) l.
Lemma pivot_some l p t : pivot l = Some (p, t) -> lead p <> 0 /\ forall r, In r l <-> r = p \/ In r t.
Proof.
  revert p t. induction l as [|r l IH]; cbn; intros p t H; [discriminate|]. destruct (nz (lead r)) eqn:Z.
  - injection H as <- <-. split; [now apply nz_true|]. intros q. split; intros [->|]; auto.
  - destruct (pivot l) as [[p' t']|]; [|discriminate]. injection H as <- <-. destruct (IH p' t' eq_refl) as [A B]. split; [exact A|].
    intros q. cbn. rewrite B. intuition.
Qed.
Lemma pivot_len l p t : pivot l = Some (p, t) -> length l = S (length t).
Proof.
  revert p t. induction l as [|r l IH]; cbn; intros p t H; [discriminate|]. destruct (nz (lead r)); [injection H as <- <-; auto|].
  destruct (pivot l) as [[p' t']|]; [|discriminate]. injection H as <- <-. rewrite (IH _ _ eq_refl). reflexivity.
Qed.
Lemma pivot_none l : pivot l = None -> forall r, In r l -> lead r = 0.
Proof.
  induction l as [|r l IH]; cbn; intros H q Hq; [easy|]. destruct (nz (lead r)) eqn:Z; [discriminate|].
  destruct (pivot l); [discriminate|]. destruct Hq as [<-|Hq]; [now apply nz_false|auto].
Qed.
Lemma dot_lead n r y x : length (fst r) = S n -> dot (fst r) (y :: x) = lead r * y + dot (tl (fst r)) x.
Proof. destruct r as [[|a r] b]; cbn; [discriminate|auto]. Qed.
Lemma tl_len n (r : arow) : length (fst r) = S n -> length (tl (fst r)) = n.
Proof. destruct r as [[|a r] b]; cbn; [discriminate|lia]. Qed.
Lemma wide_reduce n p t : length (fst p) = S n -> wide (S n) t -> wide n (map (reduce p) t).
Proof.
  intros P W. apply Forall_map. eapply Forall_impl; [|exact W]. intros r Hr. cbn in *. rewrite axpy_len; rewrite !(tl_len n) by auto; auto.
Qed.

Lemma gsolve_len n : forall l x, gsolve n l = Some x -> length x = n.
Proof.
  induction n as [|n IH]; cbn; intros l x H; [injection H as <-; auto|]. destruct (pivot l) as [[p t]|]; [|discriminate].
  destruct (gsolve n (map (reduce p) t)) as [y|] eqn:G; [|discriminate]. injection H as <-. cbn. f_equal. eauto.
Qed.
Lemma gsolve_sound n : forall l x, length l = n -> wide n l -> gsolve n l = Some x -> Forall (fun r => dot (fst r) x = snd r) l.
Proof.
  induction n as [|n IH]; intros l x Ln W H; [destruct l; [constructor|discriminate]|]. cbn [gsolve] in H.
  destruct (pivot l) as [[p t]|] eqn:P; [|discriminate].
  destruct (gsolve n (map (reduce p) t)) as [y|] eqn:G; [|discriminate]. injection H as <-.
  destruct (pivot_some _ _ _ P) as [Z In_]. pose proof (pivot_len _ _ _ P) as Lt. unfold wide in W. rewrite Forall_forall in W.
  assert (Wp : length (fst p) = S n) by (apply W, In_; auto).
  assert (Wt : wide (S n) t) by (apply Forall_forall; intros r Hr; apply W, In_; auto).
  pose proof (gsolve_len _ _ _ G) as Ly.
  assert (Lm : length (map (reduce p) t) = n) by (rewrite map_length; lia).
  assert (X := IH _ _ Lm (wide_reduce n p t Wp Wt) G). rewrite Forall_map, Forall_forall in X.
  apply Forall_forall. intros r Hr. apply In_ in Hr. rewrite (dot_lead n) by (destruct Hr as [->|Hr]; [auto|apply W, In_; auto]).
  destruct Hr as [->|Hr]; [field; exact Z|].
  specialize (X r Hr). unfold reduce in X. cbn [fst snd] in X. rewrite dot_axpy in X.
  2:{ rewrite (tl_len n); [lia|]. apply W, In_; auto. } 2:{ rewrite (tl_len n); [lia|auto]. }
  replace (dot (tl (fst r)) y) with (snd r - lead r / lead p * snd p + lead r / lead p * dot (tl (fst p)) y) by (rewrite <- X; ring).
  field. exact Z.
Qed.
Lemma gsolve_none n : forall l, length l = n -> wide n l -> gsolve n l = None ->
  exists x, length x = n /\ x <> zeros n /\ Forall (fun r => dot (fst r) x = 0) l.
Proof.
  induction n as [|n IH]; intros l Ln W H; [discriminate|]. cbn [gsolve] in H. unfold wide in W. rewrite Forall_forall in W.
  destruct (pivot l) as [[p t]|] eqn:P.
  - destruct (gsolve n (map (reduce p) t)) as [y|] eqn:G; [discriminate|].
    destruct (pivot_some _ _ _ P) as [Z In_]. pose proof (pivot_len _ _ _ P) as Lt.
    assert (Wp : length (fst p) = S n) by (apply W, In_; auto).
    assert (Wt : wide (S n) t) by (apply Forall_forall; intros r Hr; apply W, In_; auto).
    assert (Lm : length (map (reduce p) t) = n) by (rewrite map_length; lia).
    destruct (IH _ Lm (wide_reduce n p t Wp Wt) G) as (x & Lx & Nx & X). rewrite Forall_map, Forall_forall in X.
    exists (- dot (tl (fst p)) x / lead p :: x). split; [cbn; lia|]. split; [intros Q; injection Q as _ Q; auto|].
    apply Forall_forall. intros r Hr. apply In_ in Hr. rewrite (dot_lead n) by (destruct Hr as [->|Hr]; [auto|apply W, In_; auto]).
    destruct Hr as [->|Hr]; [field; exact Z|].
    specialize (X r Hr). unfold reduce in X. cbn [fst snd] in X. rewrite dot_axpy in X.
    2:{ rewrite (tl_len n); [lia|]. apply W, In_; auto. } 2:{ rewrite (tl_len n); [lia|auto]. }
    replace (dot (tl (fst r)) x) with (lead r / lead p * dot (tl (fst p)) x) by (transitivity (dot (tl (fst r)) x - (dot (tl (fst r)) x - lead r / lead p * dot (tl (fst p)) x)); [ring|rewrite X; ring]).
    field. exact Z.
  - exists (1 :: zeros n). split; [cbn; f_equal; apply repeat_length|]. split; [intros Q; injection Q as Q; now apply n1_neq_0 in Q|].
    apply Forall_forall. intros r Hr. rewrite (dot_lead n) by auto. rewrite (pivot_none _ P r Hr), dot_zeros_r. ring.
Qed.

Lemma combine_wide n (a : list (list F)) b : Forall (fun r => length r = n) a -> wide n (combine a b).
Proof.
  intros H. apply Forall_forall. intros [r y] Hr. apply in_combine_l in Hr. rewrite Forall_forall in H. exact (H r Hr).
Qed.
Lemma combine_dot a : forall b x, length a = length b -> Forall (fun r : arow => dot (fst r) x = snd r) (combine a b) -> mat_vec a x = b.
Proof.
  induction a as [|r a IH]; intros [|y b] x H W; cbn in *; try discriminate; [auto|]. inversion W as [|? ? A B]; subst. cbn in A. unfold mat_vec in *. cbn.
  rewrite A. f_equal. apply IH; auto.
Qed.
Lemma combine_dot0 a : forall (b : list F) x, length a = length b -> Forall (fun r : arow => dot (fst r) x = 0) (combine a b) -> mat_vec a x = zeros (length b).
Proof.
  induction a as [|r a IH]; intros [|y b] x H W; cbn in *; try discriminate; [auto|]. inversion W as [|? ? A B]; subst. cbn in A. unfold mat_vec in *. cbn.
  rewrite A. f_equal. apply (IH b); auto.
Qed.
Theorem gauss_laws : le_laws gauss.
Proof.
  split; unfold gauss.
  - intros n a b x [A1 A2] B H. rewrite B in H. pose proof (gsolve_len _ _ _ H) as Lx. split; [exact Lx|].
    apply combine_dot; [lia|]. eapply gsolve_sound; [|apply combine_wide; exact A2|exact H]. refine (eq_trans (combine_length a b) _). lia.
  - intros n a b [A1 A2] B K H. rewrite B in H. destruct (gsolve_none n (combine a b)) as (x & X1 & X2 & X3); [refine (eq_trans (combine_length a b) _); lia|now apply combine_wide|exact H|].
    apply X2. apply K; [exact X1|]. rewrite <- B. apply combine_dot0; [lia|exact X3].
Qed.
End Gauss.

(** Unit quaternions are replaced by (1, Cayley vector), which describe the same rotations; the square
    root, which enters only the reported error norm, by the identity. *)
#[export] Instance IKExt_Qc : IKExt Qc := mkIKExt Qc (fun x => x) gauss
  (fun v => Q4 1%num (vx v) (vy v) (vz v))
  (fun q => v3div (V3 (q1 q) (q2 q) (q3 q)) (q0 q))
  (fun a b => let va := V3 (q1 a) (q2 a) (q3 a) in let vb := V3 (q1 b) (q2 b) (q3 b) in
    let v := v3add (v3add (v3scale (q0 a) vb) (v3scale (q0 b) va)) (v3cross vb va) in
    Q4 (q0 a * q0 b - v3dot va vb)%num (vx v) (vy v) (vz v))
  20.
