(** Lemmas about the selection of vector functions *)
From Coq Require Import String.
From Verif Require Import Base DispatchModel DispatchSpec.
From Coq Require Import ZArith.

Lemma bit_is_set_spec vec reg bit : (0 <= bit)%Z -> bit_is_set vec reg bit = Z.testbit (vec reg) bit.
Proof.
  intros B. unfold bit_is_set.
  destruct (Z.testbit (vec reg) bit) eqn:E.
  - apply negb_true_iff, Z.eqb_neq. intros H.
    assert (T : Z.testbit (Z.land (vec reg) (Z.shiftl 1 bit)) bit = true).
    { rewrite Z.land_spec, E, Z.shiftl_1_l, Z.pow2_bits_true by exact B. reflexivity. }
    rewrite H, Z.testbit_0_l in T. discriminate.
  - apply negb_false_iff, Z.eqb_eq. apply Z.bits_inj'. intros i I.
    rewrite Z.land_spec, Z.testbit_0_l, Z.shiftl_1_l, Z.pow2_bits_eqb by exact B.
    destruct (Z.eqb_spec bit i) as [<-|]; [now rewrite E|apply andb_false_r].
Qed.

Lemma announced_spec mc leaf reg bit :
  (0 <= bit)%Z -> (leaf <=? cpuid mc 0 0 0)%Z && bit_is_set (cpuid mc leaf 0) reg bit = true <-> announced mc leaf reg bit.
Proof. intros B. rewrite bit_is_set_spec by exact B. unfold announced. rewrite andb_true_iff, Z.leb_le. reflexivity. Qed.

Lemma detect_SSE42 mc : hasSSE42 (detect mc) = true <-> supports mc SSE42.
Proof. apply announced_spec. lia. Qed.
Lemma detect_AVX mc : hasAVX (detect mc) = true <-> supports mc AVX1.
Proof. apply announced_spec. lia. Qed.
Lemma detect_AVX2 mc : hasAVX2 (detect mc) = true <-> supports mc AVX2.
Proof. apply announced_spec. lia. Qed.
Lemma detect_FMA3 mc : hasFMA3 (detect mc) = true <-> supports mc FMA3.
Proof. apply announced_spec. lia. Qed.

Definition choice (mc : machine) : option feature :=
  let features := detect mc in
  if hasFMA3 features && hasAVX2 features && hasAVX features && hasSSE42 features then Some FMA
  else if hasAVX features && hasSSE42 features then Some AVX
  else if hasSSE42 features then Some SSE else None.

Lemma usable_FMA mc : usable mc FMA <-> hasFMA3 (detect mc) && hasAVX2 (detect mc) && hasAVX (detect mc) && hasSSE42 (detect mc) = true.
Proof.
  unfold usable, compiled_for. rewrite !andb_true_iff, detect_FMA3, detect_AVX2, detect_AVX, detect_SSE42.
  rewrite !Forall_cons_iff. intuition.
Qed.
Lemma usable_AVX mc : usable mc AVX <-> hasAVX (detect mc) && hasSSE42 (detect mc) = true.
Proof.
  unfold usable, compiled_for. rewrite !andb_true_iff, detect_AVX, detect_SSE42. rewrite !Forall_cons_iff. intuition.
Qed.
Lemma usable_SSE mc : usable mc SSE <-> hasSSE42 (detect mc) = true.
Proof. unfold usable, compiled_for. rewrite detect_SSE42. rewrite !Forall_cons_iff. intuition. Qed.

Lemma choice_best mc f : choice mc = Some f <-> best mc f.
Proof.
  unfold choice, best.
  assert (A := usable_FMA mc). assert (B := usable_AVX mc). assert (C := usable_SSE mc).
  destruct (hasFMA3 (detect mc)), (hasAVX2 (detect mc)), (hasAVX (detect mc)), (hasSSE42 (detect mc)); cbn [andb] in *;
    (split;
     [ intros H; try discriminate H; injection H as <-; (split; [intuition|intros [] U; cbn; try lia; exfalso; intuition discriminate])
     | intros [U M]; destruct f; try reflexivity; try (exfalso; intuition discriminate);
       try (assert (L := M FMA ltac:(intuition)); cbn in L; lia);
       try (assert (L := M AVX ltac:(intuition)); cbn in L; lia) ]).
Qed.

Lemma choice_none mc : choice mc = None <-> forall f, ~ usable mc f.
Proof.
  unfold choice.
  assert (A := usable_FMA mc). assert (B := usable_AVX mc). assert (C := usable_SSE mc).
  destruct (hasFMA3 (detect mc)), (hasAVX2 (detect mc)), (hasAVX (detect mc)), (hasSSE42 (detect mc)); cbn [andb] in *;
    (split; [intros H; try discriminate H; intros [] U; intuition discriminate | intros H; try reflexivity; exfalso; apply (H SSE); intuition]).
Qed.

Lemma initialise_x86_choice mc s t :
  initialise_x86 mc s t = (true, match choice mc with Some f => fold_left assign (feature_functions f) t | None => t end).
Proof.
  unfold initialise_x86, choice.
  destruct (hasFMA3 (detect mc) && hasAVX2 (detect mc) && hasAVX (detect mc) && hasSSE42 (detect mc)); [reflexivity|].
  destruct (hasAVX (detect mc) && hasSSE42 (detect mc)); [reflexivity|].
  now destruct (hasSSE42 (detect mc)).
Qed.

(** *** What the table looks like after the operations *)
Definition accel_b (p : platform) (f : vfn) (d : dtype) : bool :=
  match p with
  | X86 => match f, d with
           | Multiply, (Float | Double | ComplexFloat) | MultiplyAddInplace, (Float | Double | ComplexFloat)
           | MultiplyConstantAddInplace, (Float | ComplexFloat) | RampScaling, Float => true
           | _, _ => false end
  | Armv7 => match f, d with
             | (Add | AddInplace | AddConstant | AddConstantInplace | Multiply | MultiplyInplace | MultiplyConstant
               | MultiplyConstantInplace | MultiplyAdd | MultiplyAddInplace | MultiplyConstantAdd
               | MultiplyConstantAddInplace), (Float | ComplexFloat) => true
             | _, _ => false end
  | OtherProcessor => false
  end.
Lemma accel_spec p f d : accel_b p f d = true <-> accelerated p f d.
Proof.
  split.
  - destruct p; [..|discriminate]; destruct f; try discriminate; destruct d; try discriminate; intros _; cbn; tauto.
  - destruct p; cbn [accelerated].
    + cbn [In]. intros H. repeat (destruct H as [H|H]; [inversion H; reflexivity|]). destruct H.
    + cbn [In]. intros [H K].
      repeat (destruct H as [<-|H]; [repeat (destruct K as [<-|K]; [reflexivity|]); destruct K|]). destruct H.
    + intros [].
Qed.

Definition accel_space (p : platform) (mc : machine) : option space :=
  match p with X86 => option_map Intel (choice mc) | Armv7 => Some Neon | OtherProcessor => None end.

Lemma step_initialise p mc s t f d :
  snd (step p mc t (Initialise s)) f d
  = match accel_space p mc with
    | Some n => if accel_b p f d then Some (Ptr n f d) else t f d
    | None => t f d
    end.
Proof.
  destruct p; cbn [step accel_space option_map]; [| |reflexivity].
  - rewrite initialise_x86_choice. cbn [snd]. destruct (choice mc) as [ft|]; [|reflexivity]; cbn [option_map].
    destruct f, d; reflexivity.
  - destruct f, d; reflexivity.
Qed.

(** all entries, except for one, for which there is a version are reset *)
Lemma step_uninitialise p mc t f d :
  snd (step p mc t Uninitialise) f d = Some (Ptr Reference f d)
  \/ snd (step p mc t Uninitialise) f d = t f d /\ (accel_b p f d = false \/ p = X86 /\ f = MultiplyAddInplace /\ d = Double).
Proof.
  destruct p; cbn [step].
  - destruct f, d; first [left; reflexivity | right; split; [reflexivity|left; reflexivity] | right; split; [reflexivity|right; auto]].
  - destruct f, d; first [left; reflexivity | right; split; [reflexivity|left; reflexivity]].
  - right. split; [reflexivity|left; reflexivity].
Qed.
Lemma step_uninitialise_double mc t :
  snd (step X86 mc t Uninitialise) MultiplyAddInplace Double = t MultiplyAddInplace Double.
Proof. reflexivity. Qed.

Lemma accel_provided p f d : accel_b p f d = true -> initial f d = Some (Ptr Reference f d).
Proof. destruct p, f, d; intros H; try discriminate H; reflexivity. Qed.

Lemma initial_shape f d : initial f d = None \/ initial f d = Some (Ptr Reference f d).
Proof. unfold initial. destruct (numeric d || vfn_beq f Copy); auto. Qed.
Lemma reset_provided p mc t f d :
  snd (step p mc t Uninitialise) f d = Some (Ptr Reference f d) ->
  initial f d = Some (Ptr Reference f d) \/ snd (step p mc t Uninitialise) f d = t f d.
Proof.
  destruct p; cbn [step].
  - intros _. destruct f, d; first [left; reflexivity | right; reflexivity].
  - intros _. destruct f, d; first [left; reflexivity | right; reflexivity].
  - intros _. right; reflexivity.
Qed.

(** every entry is as initially, or holds the accelerated version *)
Definition entries (p : platform) (mc : machine) (t : table) : Prop :=
  forall f d, t f d = initial f d
              \/ accel_b p f d = true /\ exists n, accel_space p mc = Some n /\ t f d = Some (Ptr n f d).

Lemma entries_step p mc t o : entries p mc t -> entries p mc (snd (step p mc t o)).
Proof.
  intros E f d. destruct o as [s|].
  - rewrite step_initialise. destruct (accel_space p mc) as [n|] eqn:A.
    + destruct (accel_b p f d) eqn:B; [right; split; [reflexivity|eauto]|].
      destruct (E f d) as [H|(H & _)]; [now left|congruence].
    + destruct (E f d) as [H|(H & n & K & _)]; [now left|congruence].
  - destruct (step_uninitialise p mc t f d) as [H|[H _]].
    + destruct (reset_provided p mc t f d H) as [I|I]; [left; now rewrite H, I|rewrite I; apply E].
    + rewrite H. apply E.
Qed.

Lemma entries_after p mc ops : entries p mc (after p mc ops).
Proof.
  unfold after.
  assert (G : forall t, entries p mc t -> entries p mc (fold_left (fun t o => snd (step p mc t o)) ops t)).
  { induction ops as [|o ops IH]; intros t E; [exact E|]. cbn [fold_left]. apply IH. now apply entries_step. }
  apply G. intros f d. now left.
Qed.

Lemma after_snoc p mc ops o : after p mc (ops ++ [o]) = snd (step p mc (after p mc ops) o).
Proof. unfold after. now rewrite fold_left_app. Qed.

Lemma provided_spec f d : initial f d = Some (Ptr Reference f d) <-> provided f d.
Proof.
  split.
  - intros H. unfold provided. destruct d; try (left; cbn; tauto); right; destruct f; try discriminate H; reflexivity.
  - intros [H| ->]; [|now destruct d].
    cbn in H. destruct d; first [reflexivity | exfalso; intuition discriminate].
Qed.
