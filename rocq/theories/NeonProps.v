(** Property C81: the NEON kernels compute the elementwise functions for every length, placement of the
    operands and contents of unused lanes, and agree with the reference functions; the alignment is not
    checked in builds with NDEBUG, and the complex multiply-add functions round differently. *)
From Verif Require Import Base Memory SimdModel SimdProofs NeonModel NeonSpec NeonProofs.
From Coq Require Import ZArith.
Local Open Scope res_scope.

Section Theorems.
  Context {T : Type} (add sub mul : T -> T -> T) (junk : nat -> list T).
  Hypothesis add_comm : forall x y, add x y = add y x.
  Hypothesis mul_comm : forall x y, mul x y = mul y x.

  (** *** The functions on numbers *)
  Definition complex_sum (x y : T * T) : T * T := (add (fst x) (fst y), add (snd x) (snd y)).
  Definition complex_product (x y : T * T) : T * T :=
    (sub (mul (fst x) (fst y)) (mul (snd x) (snd y)), add (mul (fst x) (snd y)) (mul (snd x) (fst y))).
  (** the sum of products in the order of the kernel *)
  Definition accumulated (x y acc : T * T) : T * T :=
    (sub (add (fst acc) (mul (fst x) (fst y))) (mul (snd x) (snd y)),
     add (add (snd acc) (mul (fst x) (snd y))) (mul (snd x) (fst y))).
  Definition of1 {A B : Type} (g : A -> B) (xs : list A) : option B := match xs with [x] => Some (g x) | _ => None end.
  Definition of2 {A B : Type} (g : A -> A -> B) (xs : list A) : option B := match xs with [x; y] => Some (g x y) | _ => None end.
  Definition of3 {A B : Type} (g : A -> A -> A -> B) (xs : list A) : option B :=
    match xs with [x; y; z] => Some (g x y z) | _ => None end.
  (** addition is associative, also with subtraction *)
  Definition associative : Prop :=
    (forall x y z, add x (add y z) = add (add x y) z) /\ (forall x y z, add x (sub y z) = sub (add x y) z).

  Ltac comm :=
    first
      [ reflexivity
      | match goal with |- ?h ?x ?y = ?h ?x' ?y' => apply (f_equal2 h); solve [comm] end
      | match goal with |- ?h ?x ?y = ?h ?x' ?y' =>
          transitivity (h y x); [solve [apply add_comm | apply mul_comm]|apply (f_equal2 h); solve [comm]] end
      | match goal with
        | H : forall x y z, add x (add y z) = add (add x y) z |- add (add ?z ?p) ?q = add (add ?z _) _ =>
          transitivity (add (add z q) p); [rewrite <- !H, (add_comm p q); reflexivity|apply (f_equal2 add); solve [comm]]
        end ].
  Ltac finish :=
    cbn; repeat match goal with
                | H : forall x y z, add x (add y z) = add (add x y) z |- _ => rewrite !H
                | H : forall x y z, add x (sub y z) = sub (add x y) z |- _ => rewrite !H
                end;
    repeat match goal with |- _ :: _ = _ :: _ => apply (f_equal2 cons) end; comm.
  Ltac act :=
    let rs := fresh "rs" in let L := fresh "L" in let F := fresh "F" in
    intros rs L F; cbn [length] in L; repeat lanes;
    repeat match goal with H : Forall _ (_ :: _) |- _ => inversion H; clear H; subst | H : Forall _ [] |- _ => clear H end;
    cbn [Nat.mul Nat.add] in *; repeat lanes;
    split; [reflexivity|];
    let i := fresh "i" in let Hi := fresh "Hi" in
    intros i Hi; do 4 (try (destruct i as [|i]; [finish|])); try (exfalso; lia).
  Ltac total :=
    let xs := fresh "xs" in let L := fresh "L" in
    intros xs L; cbn [length] in L; repeat lanes; cbn; eauto.
  Ltac definitions :=
    cbv beta delta [add_float add_complex add_inplace_float add_inplace_complex add_constant_float add_constant_complex add_constant_inplace_float
      add_constant_inplace_complex multiply_float multiply_complex multiply_inplace_float multiply_inplace_complex
      multiply_constant_float multiply_constant_complex multiply_constant_inplace_float multiply_constant_inplace_complex
      multiply_add_float multiply_add_complex multiply_add_inplace_float multiply_add_inplace_complex
      multiply_constant_add_float multiply_constant_add_complex multiply_constant_add_inplace_float
      multiply_constant_add_inplace_complex
      ref_add ref_add_inplace ref_add_constant ref_add_constant_inplace ref_mul ref_mul_inplace ref_mul_constant
      ref_mul_constant_inplace ref_madd ref_madd_inplace ref_constant_madd ref_constant_madd_inplace].
  Ltac real_kernel g :=
    match goal with |- computes ?k ?d ?v ?m _ /\ replaces _ ?r _ _ =>
      match goal with |- context [real_elements _ ?n ?srcs ?y] =>
        let K := fresh "K" in
        assert (K : computes k d v m (elements 1 (real_f g) n srcs y m));
        [ definitions; first [apply kernel_float_ok | rewrite <- (aligned_twice 1 srcs y) by (cbn; tauto); apply kernel_float_ok]; [assumption|act|act|act]
        | split;
          [ eapply computes_impl; [exact K|]; intros m'; apply elements_real; total
          | eapply replaces_by; [exact K|];
            definitions; first [apply reference_ok | rewrite <- (aligned_twice 1 srcs y) by (cbn; tauto); apply reference_ok]; [rewrite Nat.mul_1_r; assumption|act] ] ]
      end end.
  Ltac complex_kernel g lem :=
    match goal with |- computes ?k ?d ?v ?m _ /\ _ =>
      match goal with |- context [complex_elements _ ?n ?srcs ?y] =>
        let K := fresh "K" in
        assert (K : computes k d v m (elements 2 (complex_f g) n srcs y m));
        [ definitions; first [apply lem | rewrite <- (aligned_twice 2 srcs y) by (cbn; tauto); apply lem]; [assumption|act..]
        | split;
          [ eapply computes_impl; [exact K|]; intros m'; apply elements_complex; total
          | try intros [? ?]; eapply replaces_by; [exact K|];
            definitions; first [apply reference_ok | rewrite <- (aligned_twice 2 srcs y) by (cbn; tauto); apply reference_ok]; [assumption|act] ] ]
      end end.

  (** vectorAdd *)
  Theorem C81_add_float debug a b y n alignment (m : list T) :
    operands n [a; b] y m ->
    computes (add_float add junk debug a b y n alignment m) debug (aligned 1 [a; b; y] alignment) m (real_elements (of2 add) n [a; b] y m)
    /\ replaces (add_float add junk debug a b y n alignment m) (ref_add 1 (radd add) a b y n alignment m) (aligned 1 [a; b; y] alignment) m.
  Proof. intros O. real_kernel (of2 add). Qed.

  Theorem C81_add_complex debug a b y n alignment (m : list T) :
    operands (n * 2) [a; b] y m ->
    computes (add_complex add debug a b y n alignment m) debug (aligned 2 [a; b; y] alignment) m (complex_elements (of2 complex_sum) n [a; b] y m)
    /\ (replaces (add_complex add debug a b y n alignment m) (ref_add 2 (cadd add) a b y n alignment m) (aligned 2 [a; b; y] alignment) m).
  Proof. intros O. complex_kernel (of2 complex_sum) @kernel_complex_add_ok. Qed.

  (** vectorAddInplace *)
  Theorem C81_add_inplace_float debug a y n alignment (m : list T) :
    operands n [a; y] y m ->
    computes (add_inplace_float add junk debug a y n alignment m) debug (aligned 1 [a; y] alignment) m (real_elements (of2 add) n [a; y] y m)
    /\ replaces (add_inplace_float add junk debug a y n alignment m) (ref_add_inplace 1 (radd add) a y n alignment m) (aligned 1 [a; y] alignment) m.
  Proof. intros O. real_kernel (of2 add). Qed.

  Theorem C81_add_inplace_complex debug a y n alignment (m : list T) :
    operands (n * 2) [a; y] y m ->
    computes (add_inplace_complex add debug a y n alignment m) debug (aligned 2 [a; y] alignment) m (complex_elements (of2 complex_sum) n [a; y] y m)
    /\ (replaces (add_inplace_complex add debug a y n alignment m) (ref_add_inplace 2 (cadd add) a y n alignment m) (aligned 2 [a; y] alignment) m).
  Proof. intros O. complex_kernel (of2 complex_sum) @kernel_complex_add_ok. Qed.

  (** vectorAddConstant *)
  Theorem C81_add_constant_float debug c a y n alignment (m : list T) :
    operands n [a] y m ->
    computes (add_constant_float add junk debug c a y n alignment m) debug (aligned 1 [a; y] alignment) m (real_elements (of1 (add c)) n [a] y m)
    /\ replaces (add_constant_float add junk debug c a y n alignment m) (ref_add_constant 1 (radd add) [c] a y n alignment m) (aligned 1 [a; y] alignment) m.
  Proof. intros O. real_kernel (of1 (add c)). Qed.

  Theorem C81_add_constant_complex debug re im a y n alignment (m : list T) :
    operands (n * 2) [a] y m ->
    computes (add_constant_complex add debug re im a y n alignment m) debug (aligned 2 [a; y] alignment) m (complex_elements (of1 (complex_sum (re, im))) n [a] y m)
    /\ (replaces (add_constant_complex add debug re im a y n alignment m) (ref_add_constant 2 (cadd add) [re; im] a y n alignment m) (aligned 2 [a; y] alignment) m).
  Proof. intros O. complex_kernel (of1 (complex_sum (re, im))) @kernel_complex_add_ok. Qed.

  (** vectorAddConstantInplace *)
  Theorem C81_add_constant_inplace_float debug c y n alignment (m : list T) :
    operands n [y] y m ->
    computes (add_constant_inplace_float add junk debug c y n alignment m) debug (aligned 1 [y] alignment) m (real_elements (of1 (add c)) n [y] y m)
    /\ replaces (add_constant_inplace_float add junk debug c y n alignment m) (ref_add_constant_inplace 1 (radd add) [c] y n alignment m) (aligned 1 [y] alignment) m.
  Proof. intros O. real_kernel (of1 (add c)). Qed.

  Theorem C81_add_constant_inplace_complex debug re im y n alignment (m : list T) :
    operands (n * 2) [y] y m ->
    computes (add_constant_inplace_complex add debug re im y n alignment m) debug (aligned 2 [y] alignment) m (complex_elements (of1 (complex_sum (re, im))) n [y] y m)
    /\ (replaces (add_constant_inplace_complex add debug re im y n alignment m) (ref_add_constant_inplace 2 (cadd add) [re; im] y n alignment m) (aligned 2 [y] alignment) m).
  Proof. intros O. complex_kernel (of1 (complex_sum (re, im))) @kernel_complex_add_ok. Qed.

  (** vectorMultiply *)
  Theorem C81_multiply_float debug a b y n alignment (m : list T) :
    operands n [a; b] y m ->
    computes (multiply_float mul junk debug a b y n alignment m) debug (aligned 1 [a; b; y] alignment) m (real_elements (of2 mul) n [a; b] y m)
    /\ replaces (multiply_float mul junk debug a b y n alignment m) (ref_mul 1 (rmul mul) a b y n alignment m) (aligned 1 [a; b; y] alignment) m.
  Proof. intros O. real_kernel (of2 mul). Qed.

  Theorem C81_multiply_complex debug a b y n alignment (m : list T) :
    operands (n * 2) [a; b] y m ->
    computes (multiply_complex add sub mul junk debug a b y n alignment m) debug (aligned 2 [a; b; y] alignment) m (complex_elements (of2 complex_product) n [a; b] y m)
    /\ (replaces (multiply_complex add sub mul junk debug a b y n alignment m) (ref_mul 2 (cmul add sub mul) a b y n alignment m) (aligned 2 [a; b; y] alignment) m).
  Proof. intros O. complex_kernel (of2 complex_product) @kernel_complex_ok. Qed.

  (** vectorMultiplyInplace *)
  Theorem C81_multiply_inplace_float debug a y n alignment (m : list T) :
    operands n [a; y] y m ->
    computes (multiply_inplace_float mul junk debug a y n alignment m) debug (aligned 1 [a; y] alignment) m (real_elements (of2 mul) n [a; y] y m)
    /\ replaces (multiply_inplace_float mul junk debug a y n alignment m) (ref_mul_inplace 1 (rmul mul) a y n alignment m) (aligned 1 [a; y] alignment) m.
  Proof. intros O. real_kernel (of2 mul). Qed.

  Theorem C81_multiply_inplace_complex debug a y n alignment (m : list T) :
    operands (n * 2) [a; y] y m ->
    computes (multiply_inplace_complex add sub mul junk debug a y n alignment m) debug (aligned 2 [a; y] alignment) m (complex_elements (of2 complex_product) n [a; y] y m)
    /\ (replaces (multiply_inplace_complex add sub mul junk debug a y n alignment m) (ref_mul_inplace 2 (cmul add sub mul) a y n alignment m) (aligned 2 [a; y] alignment) m).
  Proof. intros O. complex_kernel (of2 complex_product) @kernel_complex_ok. Qed.

  (** vectorMultiplyConstant *)
  Theorem C81_multiply_constant_float debug c a y n alignment (m : list T) :
    operands n [a] y m ->
    computes (multiply_constant_float mul junk debug c a y n alignment m) debug (aligned 1 [a; y] alignment) m (real_elements (of1 (mul c)) n [a] y m)
    /\ replaces (multiply_constant_float mul junk debug c a y n alignment m) (ref_mul_constant 1 (rmul mul) [c] a y n alignment m) (aligned 1 [a; y] alignment) m.
  Proof. intros O. real_kernel (of1 (mul c)). Qed.

  Theorem C81_multiply_constant_complex debug re im a y n alignment (m : list T) :
    operands (n * 2) [a] y m ->
    computes (multiply_constant_complex add sub mul junk debug re im a y n alignment m) debug (aligned 2 [a; y] alignment) m (complex_elements (of1 (complex_product (re, im))) n [a] y m)
    /\ (replaces (multiply_constant_complex add sub mul junk debug re im a y n alignment m) (ref_mul_constant 2 (cmul add sub mul) [re; im] a y n alignment m) (aligned 2 [a; y] alignment) m).
  Proof. intros O. complex_kernel (of1 (complex_product (re, im))) @kernel_complex_ok. Qed.

  (** vectorMultiplyConstantInplace *)
  Theorem C81_multiply_constant_inplace_float debug c y n alignment (m : list T) :
    operands n [y] y m ->
    computes (multiply_constant_inplace_float mul junk debug c y n alignment m) debug (aligned 1 [y] alignment) m (real_elements (of1 (mul c)) n [y] y m)
    /\ replaces (multiply_constant_inplace_float mul junk debug c y n alignment m) (ref_mul_constant_inplace 1 (rmul mul) [c] y n alignment m) (aligned 1 [y] alignment) m.
  Proof. intros O. real_kernel (of1 (mul c)). Qed.

  Theorem C81_multiply_constant_inplace_complex debug re im y n alignment (m : list T) :
    operands (n * 2) [y] y m ->
    computes (multiply_constant_inplace_complex add sub mul junk debug re im y n alignment m) debug (aligned 2 [y] alignment) m (complex_elements (of1 (complex_product (re, im))) n [y] y m)
    /\ (replaces (multiply_constant_inplace_complex add sub mul junk debug re im y n alignment m) (ref_mul_constant_inplace 2 (cmul add sub mul) [re; im] y n alignment m) (aligned 2 [y] alignment) m).
  Proof. intros O. complex_kernel (of1 (complex_product (re, im))) @kernel_complex_ok. Qed.

  (** vectorMultiplyAdd *)
  Theorem C81_multiply_add_float debug a b c y n alignment (m : list T) :
    operands n [a; b; c] y m ->
    computes (multiply_add_float add mul junk debug a b c y n alignment m) debug (aligned 1 [a; b; c; y] alignment) m (real_elements (of3 (fun x1 x2 z => add z (mul x1 x2))) n [a; b; c] y m)
    /\ replaces (multiply_add_float add mul junk debug a b c y n alignment m) (ref_madd 1 (rmul mul) (radd add) a b c y n alignment m) (aligned 1 [a; b; c; y] alignment) m.
  Proof. intros O. real_kernel (of3 (fun x1 x2 z => add z (mul x1 x2))). Qed.

  Theorem C81_multiply_add_complex debug a b c y n alignment (m : list T) :
    operands (n * 2) [a; b; c] y m ->
    computes (multiply_add_complex add sub mul junk debug a b c y n alignment m) debug (aligned 2 [a; b; c; y] alignment) m (complex_elements (of3 accumulated) n [a; b; c] y m)
    /\ (associative -> replaces (multiply_add_complex add sub mul junk debug a b c y n alignment m) (ref_madd 2 (cmul add sub mul) (cadd add) a b c y n alignment m) (aligned 2 [a; b; c; y] alignment) m).
  Proof. intros O. complex_kernel (of3 accumulated) @kernel_complex_ok. Qed.

  (** vectorMultiplyAddInplace; the complex function checks its pointers in all builds *)
  Theorem C81_multiply_add_inplace_float debug a b y n alignment (m : list T) :
    operands n [a; b; y] y m ->
    computes (multiply_add_inplace_float add mul junk debug a b y n alignment m) debug (aligned 1 [a; b; y] alignment) m (real_elements (of3 (fun x1 x2 z => add z (mul x1 x2))) n [a; b; y] y m)
    /\ replaces (multiply_add_inplace_float add mul junk debug a b y n alignment m) (ref_madd_inplace 1 (rmul mul) (radd add) a b y n alignment m) (aligned 1 [a; b; y] alignment) m.
  Proof. intros O. real_kernel (of3 (fun x1 x2 z => add z (mul x1 x2))). Qed.

  Theorem C81_multiply_add_inplace_complex a b y n alignment (m : list T) :
    operands (n * 2) [a; b; y] y m ->
    computes (multiply_add_inplace_complex add sub mul junk a b y n alignment m) true (aligned 2 [a; b; y] alignment) m (complex_elements (of3 accumulated) n [a; b; y] y m)
    /\ (associative -> replaces (multiply_add_inplace_complex add sub mul junk a b y n alignment m) (ref_madd_inplace 2 (cmul add sub mul) (cadd add) a b y n alignment m) (aligned 2 [a; b; y] alignment) m).
  Proof. intros O. complex_kernel (of3 accumulated) @kernel_complex_ok. Qed.

  (** vectorMultiplyConstantAdd *)
  Theorem C81_multiply_constant_add_float debug k a c y n alignment (m : list T) :
    operands n [a; c] y m ->
    computes (multiply_constant_add_float add mul junk debug k a c y n alignment m) debug (aligned 1 [a; c; y] alignment) m (real_elements (of2 (fun x z => add z (mul k x))) n [a; c] y m)
    /\ replaces (multiply_constant_add_float add mul junk debug k a c y n alignment m) (ref_constant_madd 1 (rmul mul) (radd add) [k] a c y n alignment m) (aligned 1 [a; c; y] alignment) m.
  Proof. intros O. real_kernel (of2 (fun x z => add z (mul k x))). Qed.

  Theorem C81_multiply_constant_add_complex debug re im a c y n alignment (m : list T) :
    operands (n * 2) [a; c] y m ->
    computes (multiply_constant_add_complex add sub mul junk debug re im a c y n alignment m) debug (aligned 2 [a; c; y] alignment) m (complex_elements (of2 (fun x z => accumulated x (re, im) z)) n [a; c] y m)
    /\ (associative -> replaces (multiply_constant_add_complex add sub mul junk debug re im a c y n alignment m) (ref_constant_madd 2 (cmul add sub mul) (cadd add) [re; im] a c y n alignment m) (aligned 2 [a; c; y] alignment) m).
  Proof. intros O. complex_kernel (of2 (fun x z => accumulated x (re, im) z)) @kernel_complex_ok. Qed.

  (** vectorMultiplyConstantAddInplace *)
  Theorem C81_multiply_constant_add_inplace_float debug k a y n alignment (m : list T) :
    operands n [a; y] y m ->
    computes (multiply_constant_add_inplace_float add mul junk debug k a y n alignment m) debug (aligned 1 [a; y] alignment) m (real_elements (of2 (fun x z => add z (mul k x))) n [a; y] y m)
    /\ replaces (multiply_constant_add_inplace_float add mul junk debug k a y n alignment m) (ref_constant_madd_inplace 1 (rmul mul) (radd add) [k] a y n alignment m) (aligned 1 [a; y] alignment) m.
  Proof. intros O. real_kernel (of2 (fun x z => add z (mul k x))). Qed.

  Theorem C81_multiply_constant_add_inplace_complex debug re im a y n alignment (m : list T) :
    operands (n * 2) [a; y] y m ->
    computes (multiply_constant_add_inplace_complex add sub mul junk debug re im a y n alignment m) debug (aligned 2 [a; y] alignment) m (complex_elements (of2 (fun x z => accumulated x (re, im) z)) n [a; y] y m)
    /\ (associative -> replaces (multiply_constant_add_inplace_complex add sub mul junk debug re im a y n alignment m) (ref_constant_madd_inplace 2 (cmul add sub mul) (cadd add) [re; im] a y n alignment m) (aligned 2 [a; y] alignment) m).
  Proof. intros O. complex_kernel (of2 (fun x z => accumulated x (re, im) z)) @kernel_complex_ok. Qed.
End Theorems.

(** *** Where the kernels and the reference functions differ *)
(** Builds with NDEBUG do not check the alignment: pointers the reference function rejects are
    accepted, except by the complex vectorMultiplyAddInplace. *)
Theorem C81_alignment_refuted :
  exists a b y n alignment (m : list Z), operands n [a; b] y m
    /\ (exists m', multiply_float Z.mul (fun _ => []) false a b y n alignment m = Ok (NoError, m'))
    /\ ref_mul 1 (rmul Z.mul) a b y n alignment m = Ok (AlignmentError, m)
    /\ multiply_add_inplace_complex Z.add Z.sub Z.mul (fun _ => []) a b y 1 alignment m = Ok (AlignmentError, m).
Proof.
  exists 1, 3, 5, 1, 4, [0; 2; 0; 3; 0; 0; 0]%Z.
  split; [split; [simpl; lia|repeat constructor; simpl; lia]|].
  split; [eexists; vm_compute; reflexivity|]. split; vm_compute; reflexivity.
Qed.

(** A rounding arithmetic: integers of four binary digits and one digit for the exponent. *)
Definition rounded (x : Z) : Z := if (Z.abs x <=? 16)%Z then x else (2 * (x / 2))%Z.
Definition radd' (x y : Z) : Z := rounded (x + y).
Definition rsub' (x y : Z) : Z := rounded (x - y).
Definition rmul' (x y : Z) : Z := rounded (x * y).

(** If addition rounds, the complex multiply-add functions differ from the reference functions. *)
Theorem C81_rounding_refuted :
  (forall x y, radd' x y = radd' y x) /\ (forall x y, rmul' x y = rmul' y x)
  /\ exists a b y (m : list Z), operands (1 * 2) [a; b; y] y m /\ aligned 2 [a; b; y] 0 = true
    /\ ~ replaces (multiply_add_inplace_complex radd' rsub' rmul' (fun _ => []) a b y 1 0 m)
           (ref_madd_inplace 2 (cmul radd' rsub' rmul') (cadd radd') a b y 1 0 m) true m.
Proof.
  split; [intros; unfold radd'; f_equal; lia|]. split; [intros; unfold rmul'; f_equal; lia|].
  exists 0, 2, 4, [1; 1; 1; 1; 16; 0]%Z.
  split; [split; [simpl; lia|repeat constructor; simpl; lia]|]. split; [reflexivity|].
  vm_compute. discriminate.
Qed.

(** *** Examples: seven elements use all three widths, the last lane is independent of old contents *)
Example C81_example_float :
  let m := [1; 2; 3; 4; 5; 6; 7; 10; 20; 30; 40; 50; 60; 70; 0; 0; 0; 0; 0; 0; 0; 9]%Z in
  operands 7 [0; 7] 14 m /\ operands 7 [0; 7] 7 m
  /\ (forall junk, add_float Z.add junk true 0 7 14 7 1 m
      = Ok (NoError, [1; 2; 3; 4; 5; 6; 7; 10; 20; 30; 40; 50; 60; 70; 11; 22; 33; 44; 55; 66; 77; 9]%Z))
  /\ (forall junk, multiply_constant_add_inplace_float Z.add Z.mul junk true 2%Z 0 7 7 1 m
      = Ok (NoError, [1; 2; 3; 4; 5; 6; 7; 12; 24; 36; 48; 60; 72; 84; 0; 0; 0; 0; 0; 0; 0; 9]%Z)).
Proof.
  simpl. split; [split; [simpl; lia|repeat constructor; simpl; lia]|].
  split; [split; [simpl; lia|repeat constructor; simpl; lia]|].
  split; intros; reflexivity.
Qed.
Example C81_example_complex :
  let m := [1; 2; 0; 1; 3; 0; 2; 2; 1; -1; 4; 4; 0; 0; 0; 0; 0; 0; 7]%Z in
  operands (3 * 2) [0; 6] 12 m /\ associative Z.add Z.sub
  /\ (forall junk, multiply_complex Z.add Z.sub Z.mul junk true 0 6 12 3 1 m
      = Ok (NoError, [1; 2; 0; 1; 3; 0; 2; 2; 1; -1; 4; 4; -2; 6; 1; 1; 12; 12; 7]%Z))
  /\ (forall junk, multiply_add_inplace_complex Z.add Z.sub Z.mul junk 0 0 6 3 1 m
      = Ok (NoError, [1; 2; 0; 1; 3; 0; -1; 6; 0; -1; 13; 4; 0; 0; 0; 0; 0; 0; 7]%Z)).
Proof.
  simpl. split; [split; [simpl; lia|repeat constructor; simpl; lia]|].
  split; [split; intros; lia|]. split; intros; reflexivity.
Qed.

Print Assumptions C81_add_float.
Print Assumptions C81_add_complex.
Print Assumptions C81_add_inplace_float.
Print Assumptions C81_add_inplace_complex.
Print Assumptions C81_add_constant_float.
Print Assumptions C81_add_constant_complex.
Print Assumptions C81_add_constant_inplace_float.
Print Assumptions C81_add_constant_inplace_complex.
Print Assumptions C81_multiply_float.
Print Assumptions C81_multiply_complex.
Print Assumptions C81_multiply_inplace_float.
Print Assumptions C81_multiply_inplace_complex.
Print Assumptions C81_multiply_constant_float.
Print Assumptions C81_multiply_constant_complex.
Print Assumptions C81_multiply_constant_inplace_float.
Print Assumptions C81_multiply_constant_inplace_complex.
Print Assumptions C81_multiply_add_float.
Print Assumptions C81_multiply_add_complex.
Print Assumptions C81_multiply_add_inplace_float.
Print Assumptions C81_multiply_add_inplace_complex.
Print Assumptions C81_multiply_constant_add_float.
Print Assumptions C81_multiply_constant_add_complex.
Print Assumptions C81_multiply_constant_add_inplace_float.
Print Assumptions C81_multiply_constant_add_inplace_complex.
Print Assumptions C81_alignment_refuted.
Print Assumptions C81_rounding_refuted.
