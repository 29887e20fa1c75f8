(** Property C18: the vector kernels compute what the reference functions compute, for
    every length, alignment argument, instruction set and placement of the operands. *)
From Verif Require Import Base Memory SimdModel SimdProofs SimdKernels SimdCompose.
From Coq Require Import ZArith.
Local Open Scope res_scope.

(** The kernel behaves as the reference function.  If the alignment checks pass it
    succeeds with a memory satisfying the specification, otherwise it reports the error
    and leaves the memory unchanged. *)
Definition agrees {T} (kernel ref : @result T) (valid : bool) (m : list T) (spec : list T -> Prop)
  : Prop :=
  kernel = ref
  /\ if valid then exists m', kernel = Ok (NoError, m') /\ spec m'
     else kernel = Ok (AlignmentError, m).

Lemma agree_by {T} e f n a b y (m : list T) (kernel : @result T) f' (spec : list T -> Prop) :
  operands_ok (n * e) a b y m -> elementary e f ->
  (exists m', kernel = Ok (NoError, m') /\ elementwise e f n a b y m m') ->
  (forall x1 x2 x3, f' x1 x2 x3 = f x1 x2 x3) ->
  (forall m', elementwise e f n a b y m m' -> spec m') ->
  kernel = ref_loop e f' n a b y m /\ exists m', kernel = Ok (NoError, m') /\ spec m'.
Proof.
  intros O El (m' & K & E) F S.
  destruct (reference e f n a b y m O El) as (m2 & R & E2).
  split; [|eauto].
  rewrite (ref_loop_ext e f' f) by exact F. rewrite K, R.
  now rewrite (elementwise_unique e f n a b y m m' m2 E E2).
Qed.

Section Theorems.
  Context {T : Type} (zero : T) (add sub mul : T -> T -> T) (fma : T -> T -> T -> T).
  Variable add_comm : forall x y, add x y = add y x.
  Variable mul_comm : forall x y, mul x y = mul y x.

  Definition complex_mul (x y : T * T) : T * T :=
    (sub (mul (fst x) (fst y)) (mul (snd x) (snd y)), add (mul (fst x) (snd y)) (mul (snd x) (fst y))).
  Definition complex_add (x y : T * T) : T * T := (add (fst x) (fst y), add (snd x) (snd y)).

  (** vectorMultiply *)
  Theorem C18_multiply_float avx f1 f2 r n alignment (m : list T) :
    operands_ok n f1 f2 r m ->
    agrees (multiply_float zero mul avx f1 f2 r n alignment m)
           (ref_multiply 1 (rmul mul) f1 f2 r n alignment m)
           (check_ptr 1 f1 alignment && check_ptr 1 f2 alignment && check_ptr 1 r alignment) m
           (real_result (fun x y _ => mul x y) n f1 f2 r m).
  Proof.
    intros O. unfold agrees, ref_multiply.
    destruct (check_ptr 1 f1 alignment && check_ptr 1 f2 alignment && check_ptr 1 r alignment) eqn:C.
    - apply agree_by with (f := f_mul mul); auto using f_mul_el, operands_1.
      + now apply (multiply_real_ok zero mul avx 8 3).
      + intros m'. now apply elementwise_real.
    - unfold multiply_float, multiply_real. rewrite C. auto.
  Qed.

  Theorem C18_multiply_double avx f1 f2 r n alignment (m : list T) :
    operands_ok n f1 f2 r m ->
    agrees (multiply_double zero mul avx f1 f2 r n alignment m)
           (ref_multiply 1 (rmul mul) f1 f2 r n alignment m)
           (check_ptr 1 f1 alignment && check_ptr 1 f2 alignment && check_ptr 1 r alignment) m
           (real_result (fun x y _ => mul x y) n f1 f2 r m).
  Proof.
    intros O. unfold agrees, ref_multiply.
    destruct (check_ptr 1 f1 alignment && check_ptr 1 f2 alignment && check_ptr 1 r alignment) eqn:C.
    - apply agree_by with (f := f_mul mul); auto using f_mul_el, operands_1.
      + now apply (multiply_real_ok zero mul avx 4 2).
      + intros m'. now apply elementwise_real.
    - unfold multiply_double, multiply_real. rewrite C. auto.
  Qed.

  Theorem C18_multiply_complex avx f1 f2 r n alignment (m : list T) :
    operands_ok (n * 2) f1 f2 r m ->
    agrees (multiply_complex add sub mul avx f1 f2 r n alignment m)
           (ref_multiply 2 (cmul add sub mul) f1 f2 r n alignment m)
           (check_ptr 2 f1 alignment && check_ptr 2 f2 alignment && check_ptr 2 r alignment) m
           (complex_result (fun x y _ => complex_mul x y) n f1 f2 r m).
  Proof.
    intros O. unfold agrees, ref_multiply.
    destruct (check_ptr 2 f1 alignment && check_ptr 2 f2 alignment && check_ptr 2 r alignment) eqn:C.
    - apply agree_by with (f := f_cmul add sub mul); auto using f_cmul_el.
      + now apply multiply_complex_ok.
      + intros m'. now apply elementwise_complex.
    - unfold multiply_complex. rewrite C. auto.
  Qed.

  (** vectorMultiplyAddInplace *)
  Theorem C18_multiply_add_float avx avx2 f1 f2 acc n alignment (m : list T) :
    fma_exact add mul fma avx2 -> operands_ok n f1 f2 acc m ->
    agrees (multiply_add_float zero add mul fma avx avx2 f1 f2 acc n alignment m)
           (ref_multiply_add 1 (rmul mul) (radd add) f1 f2 acc n alignment m)
           (check_ptr 1 f1 alignment && check_ptr 1 f2 alignment && check_ptr 1 acc alignment) m
           (real_result (fun x y z => add z (mul x y)) n f1 f2 acc m).
  Proof.
    intros F O. unfold agrees, ref_multiply_add.
    destruct (check_ptr 1 f1 alignment && check_ptr 1 f2 alignment && check_ptr 1 acc alignment) eqn:C.
    - apply agree_by with (f := f_madd add mul); auto using f_madd_el, operands_1.
      + apply (multiply_add_real_ok zero add mul fma add_comm avx avx2 8 4 3); auto; lia.
      + intros m'. now apply elementwise_real.
    - unfold multiply_add_float, multiply_add_real. rewrite C. auto.
  Qed.

  Theorem C18_multiply_add_double avx avx2 f1 f2 acc n alignment (m : list T) :
    fma_exact add mul fma avx2 -> operands_ok n f1 f2 acc m ->
    agrees (multiply_add_double zero add mul fma avx avx2 f1 f2 acc n alignment m)
           (ref_multiply_add 1 (rmul mul) (radd add) f1 f2 acc n alignment m)
           (check_ptr 1 f1 alignment && check_ptr 1 f2 alignment && check_ptr 1 acc alignment) m
           (real_result (fun x y z => add z (mul x y)) n f1 f2 acc m).
  Proof.
    intros F O. unfold agrees, ref_multiply_add.
    destruct (check_ptr 1 f1 alignment && check_ptr 1 f2 alignment && check_ptr 1 acc alignment) eqn:C.
    - apply agree_by with (f := f_madd add mul); auto using f_madd_el, operands_1.
      + apply (multiply_add_real_ok zero add mul fma add_comm avx avx2 4 2 2); auto; lia.
      + intros m'. now apply elementwise_real.
    - unfold multiply_add_double, multiply_add_real. rewrite C. auto.
  Qed.

  Theorem C18_multiply_add_complex avx f1 f2 acc n alignment (m : list T) :
    operands_ok (n * 2) f1 f2 acc m ->
    agrees (multiply_add_complex add sub mul avx f1 f2 acc n alignment m)
           (ref_multiply_add 2 (cmul add sub mul) (cadd add) f1 f2 acc n alignment m)
           (check_ptr 2 f1 alignment && check_ptr 2 f2 alignment && check_ptr 2 acc alignment) m
           (complex_result (fun x y z => complex_add z (complex_mul x y)) n f1 f2 acc m).
  Proof.
    intros O. unfold agrees, ref_multiply_add.
    destruct (check_ptr 2 f1 alignment && check_ptr 2 f2 alignment && check_ptr 2 acc alignment) eqn:C.
    - apply agree_by with (f := f_cmadd add sub mul); auto using f_cmadd_el.
      + now apply multiply_add_complex_ok.
      + intros m'. now apply elementwise_complex.
    - unfold multiply_add_complex. rewrite C. auto.
  Qed.

  (** vectorRampScaling.  Builds without assertions do not check the alignment argument;
      there it must be truthful. *)
  Theorem C18_ramp_scaling avx avx2 debug accumulate base gain x ramp y n alignment (m : list T) :
    fma_exact add mul fma avx2 -> operands_ok n x ramp y m ->
    let valid := check_ptr 1 x alignment && check_ptr 1 ramp alignment && check_ptr 1 y alignment in
    debug = true \/ valid = true ->
    agrees (ramp_float zero add mul fma avx avx2 debug accumulate base gain x ramp y n alignment m)
           (ref_ramp add mul debug accumulate base gain x ramp y n alignment m)
           valid m
           (real_result (fun a r o => let v := mul (add base (mul gain r)) a in
                                      if accumulate then add o v else v) n x ramp y m).
  Proof.
    intros F O valid D.
    destruct valid eqn:C; unfold valid in C.
    - unfold agrees, ref_ramp. rewrite C. cbn [negb]. rewrite andb_false_r.
      assert (K : exists m', ramp_float zero add mul fma avx avx2 debug accumulate base gain x ramp y n alignment m
                  = Ok (NoError, m') /\ elementwise 1 (f_ramp add mul accumulate base gain) n x ramp y m m')
        by now apply ramp_float_ok.
      destruct accumulate.
      + apply agree_by with (f := f_ramp add mul true base gain); auto using f_ramp_el, operands_1.
        intros m'. now apply elementwise_real.
      + destruct K as (m' & K & E).
        assert (E2 := E).
        (* the reference loop does not look at the old output *)
        destruct (reference 1 (fun a r _ => match a, r with
           | [a], [r] => [mul (add base (mul gain r)) a] | _, _ => [] end) n x ramp y m (operands_1 _ _ _ _ _ O))
          as (m2 & R & ER).
        { intros [|? [|? ?]] [|? [|? ?]] [|? [|? ?]] A B Cc; try discriminate; reflexivity. }
        rewrite K, R.
        assert (m' = m2).
        { eapply elementwise_unique; [exact E|].
          destruct ER as (L & Ou & In). split; [exact L|]. split; [exact Ou|].
          intros i Hi. rewrite In by exact Hi. unfold f_ramp.
          destruct O as (La & Lb & Ly & _).
          assert (W := fun p (H : p + 1 <= length m) => words_length m 1 p H).
          assert (Wa := W (x + i * 1) ltac:(lia)). assert (Wb := W (ramp + i * 1) ltac:(lia)).
          assert (Wc := W (y + i * 1) ltac:(lia)).
          destruct (words m 1 (x + i * 1)) as [|? [|? ?]]; try discriminate.
          destruct (words m 1 (ramp + i * 1)) as [|? [|? ?]]; try discriminate.
          destruct (words m 1 (y + i * 1)) as [|? [|? ?]]; try discriminate. reflexivity. }
        subst m2. split; [reflexivity|]. exists m'. split; [reflexivity|].
        revert E2. now apply elementwise_real.
    - destruct D as [D|D]; [|discriminate].
      unfold agrees, ramp_float, ref_ramp. rewrite C, D. auto.
  Qed.

  (** vectorMultiplyConstantAddInplace.  Missing with respect to the full statement: the
      kernels do not check the alignment argument, so it must be truthful, and the float
      kernel additionally needs an accumulator aligned to 16 bytes unless fewer than four
      elements remain after the AVX loop; see the refutations below. *)
  Theorem C18_constant_add_float_partial (avx : bool) avx2 c x acc n alignment (m : list T) :
    fma_exact add mul fma avx2 -> operands_ok n x x acc m ->
    check_ptr 1 x alignment && check_ptr 1 acc alignment = true ->
    (4 <= (if avx then n mod 8 else n) -> Nat.divide 4 acc) ->
    agrees (constant_add_float zero add mul fma avx avx2 c x acc n alignment m)
           (ref_constant_add 1 (rmul mul) (radd add) [c] x acc n alignment m)
           true m
           (real_result (fun a _ y => add y (mul c a)) n x x acc m).
  Proof.
    intros F O C A. unfold agrees, ref_constant_add. rewrite C.
    apply agree_by with (f := f_const add mul [c]); auto using f_const_el, operands_1.
    - now apply constant_add_float_ok.
    - intros m'. now apply elementwise_real.
  Qed.

  (** With an alignment argument of at least four elements the second condition holds. *)
  Theorem C18_constant_add_float_aligned_partial avx avx2 c x acc n alignment (m : list T) :
    fma_exact add mul fma avx2 -> operands_ok n x x acc m -> 4 <= alignment ->
    check_ptr 1 x alignment && check_ptr 1 acc alignment = true ->
    agrees (constant_add_float zero add mul fma avx avx2 c x acc n alignment m)
           (ref_constant_add 1 (rmul mul) (radd add) [c] x acc n alignment m)
           true m
           (real_result (fun a _ y => add y (mul c a)) n x x acc m).
  Proof.
    intros F O A C. apply C18_constant_add_float_partial; auto.
    intros _. apply andb_true_iff in C as [_ C].
    now apply (check_ptr_divides 1 acc alignment 4 2).
  Qed.

  Theorem C18_constant_add_complex_partial avx re im x acc n alignment (m : list T) :
    operands_ok (n * 2) x x acc m ->
    check_ptr 2 x alignment && check_ptr 2 acc alignment = true ->
    agrees (constant_add_complex add sub mul avx re im x acc n alignment m)
           (ref_constant_add 2 (cmul add sub mul) (cadd add) [re; im] x acc n alignment m)
           true m
           (complex_result (fun a _ y => complex_add y (complex_mul (re, im) a)) n x x acc m).
  Proof.
    intros O C. unfold agrees, ref_constant_add. rewrite C.
    apply agree_by with (f := f_cconst add sub mul [re; im]); auto using f_cconst_el.
    - now apply constant_add_complex_ok.
    - intros m'. now apply elementwise_complex.
  Qed.
End Theorems.
Print Assumptions C18_multiply_float.
Print Assumptions C18_multiply_double.
Print Assumptions C18_multiply_complex.
Print Assumptions C18_multiply_add_float.
Print Assumptions C18_multiply_add_double.
Print Assumptions C18_multiply_add_complex.
Print Assumptions C18_ramp_scaling.
Print Assumptions C18_constant_add_float_partial.
Print Assumptions C18_constant_add_float_aligned_partial.
Print Assumptions C18_constant_add_complex_partial.

(** The kernels never use undefined behaviour for operands that the caller does not
    claim to be aligned (alignment = 0) - false for the float multiply-constant-add:
    four elements and an accumulator at an odd word fault although the reference
    function computes the result.  Correct data, correct arguments. *)
Theorem C18_constant_add_float_unaligned_refuted :
  exists (c : Z) (x acc n alignment : nat) (m m' : list Z),
    operands_ok n x x acc m
    /\ check_ptr 1 x alignment && check_ptr 1 acc alignment = true
    /\ ref_constant_add 1 (rmul Z.mul) (radd Z.add) [c] x acc n alignment m = Ok (NoError, m')
    /\ (forall avx avx2, constant_add_float 0%Z Z.add Z.mul (fun a b c => a * b + c)%Z avx avx2 c x acc n alignment m = UB).
Proof.
  exists 2%Z, 0, 5, 4, 0, [1; 2; 3; 4; 0; 10; 20; 30; 40]%Z, [1; 2; 3; 4; 0; 12; 24; 36; 48]%Z.
  unfold operands_ok, compatible. simpl length.
  split; [lia|]. split; [reflexivity|]. split; [vm_compute; reflexivity|].
  intros [|] [|]; vm_compute; reflexivity.
Qed.
Print Assumptions C18_constant_add_float_unaligned_refuted.

(** Where the reference reports a wrong alignment argument, the kernels do not check it:
    success for a complex operand (too few elements for a vector loop)... *)
Theorem C18_constant_add_alignment_error_refuted :
  exists (x acc n alignment : nat) (m m' : list Z),
    operands_ok (n * 2) x x acc m
    /\ ref_constant_add 2 (cmul Z.add Z.sub Z.mul) (cadd Z.add) [1%Z; 1%Z] x acc n alignment m
       = Ok (AlignmentError, m)
    /\ (forall avx, constant_add_complex Z.add Z.sub Z.mul avx 1%Z 1%Z x acc n alignment m = Ok (NoError, m'))
    /\ m' <> m.
Proof.
  exists 0, 2, 1, 2, [1; 2; 3; 4]%Z, [1; 2; 2; 7]%Z.
  unfold operands_ok, compatible. simpl length.
  split; [lia|]. split; [vm_compute; reflexivity|]. split; [|discriminate].
  intros [|]; vm_compute; reflexivity.
Qed.
Print Assumptions C18_constant_add_alignment_error_refuted.

(** ... and undefined behaviour for two or more elements. *)
Theorem C18_constant_add_alignment_fault_refuted :
  exists (x acc n alignment : nat) (m : list Z),
    operands_ok (n * 2) x x acc m
    /\ ref_constant_add 2 (cmul Z.add Z.sub Z.mul) (cadd Z.add) [1%Z; 1%Z] x acc n alignment m
       = Ok (AlignmentError, m)
    /\ (forall avx, constant_add_complex Z.add Z.sub Z.mul avx 1%Z 1%Z x acc n alignment m = UB).
Proof.
  exists 0, 6, 2, 2, [1; 2; 3; 4; 5; 6; 7; 8; 9; 10]%Z.
  unfold operands_ok, compatible. simpl length.
  split; [lia|]. split; [vm_compute; reflexivity|].
  intros [|]; vm_compute; reflexivity.
Qed.
Print Assumptions C18_constant_add_alignment_fault_refuted.

(** *** Examples: lengths exercising every loop, in place and with distinct operands *)
Definition zs (a n : nat) : list Z := map Z.of_nat (seq a n).

Example C18_example_operands : operands_ok 15 0 16 0 (zs 1 40).
Proof. unfold operands_ok, compatible. rewrite ?map_length. simpl. lia. Qed.

(** 15 = 8 + 4 + 3 elements, in place, AVX with aligned operands *)
Example C18_example_madd :
  multiply_add_float 0%Z Z.add Z.mul (fun a b c => a * b + c)%Z true true 0 16 0 15 8 (zs 1 32)
  = Ok (NoError, map (fun i => if i <? 15 then Z.of_nat ((1 + i) * (17 + i) + (1 + i)) else Z.of_nat (i + 1)) (seq 0 32)).
Proof. vm_compute. reflexivity. Qed.

(** 7 = 4 + 2 + 1 complex elements *)
Example C18_example_complex :
  multiply_complex Z.add Z.sub Z.mul true 0 16 32 7 4 (zs 1 48)
  = ref_multiply 2 (cmul Z.add Z.sub Z.mul) 0 16 32 7 4 (zs 1 48)
  /\ multiply_complex Z.add Z.sub Z.mul true 0 16 32 7 4 (zs 1 48) <> Ok (AlignmentError, zs 1 48).
Proof. split; [vm_compute; reflexivity|vm_compute; discriminate]. Qed.

(** a wrong alignment argument is reported *)
Example C18_example_misaligned :
  multiply_float 0%Z Z.mul true 1 16 32 8 8 (zs 1 48) = Ok (AlignmentError, zs 1 48).
Proof. vm_compute. reflexivity. Qed.

Example C18_example_ramp :
  ramp_float 0%Z Z.add Z.mul (fun a b c => a * b + c)%Z true true false true 2%Z 3%Z 0 8 16 5 4 (zs 1 24)
  = Ok (NoError, map (fun i => if (16 <=? i) && (i <? 21)
       then Z.of_nat ((i + 1) + (2 + 3 * (i - 16 + 9)) * (i - 16 + 1)) else Z.of_nat (i + 1)) (seq 0 24)).
Proof. vm_compute. reflexivity. Qed.
