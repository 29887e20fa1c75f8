(** Composition of the loops of each kernel, for property C18: the vector kernels compute what the reference functions compute, for
    every length, alignment argument, instruction set and placement of the operands.

    The word arithmetic is arbitrary except that addition and multiplication are
    commutative (true of IEEE arithmetic up to NaN payloads); only builds using fused
    multiply-add instructions need [fma x y z = x * y + z] in addition. *)
From Verif Require Import Base Memory SimdModel SimdProofs SimdKernels.
Local Open Scope res_scope.

(** *** Specification *)
Section Spec.
  Context {T : Type}.

  (** [n] elements from [y] on hold [g] of the corresponding original elements, the rest
      of the memory is as before *)
  Definition real_result (g : T -> T -> T -> T) (n a b y : nat) (m m' : list T) : Prop :=
    length m' = length m
    /\ (forall j, j < y \/ y + n <= j -> nth_error m' j = nth_error m j)
    /\ forall i x1 x2 x3, i < n ->
         nth_error m (a + i) = Some x1 -> nth_error m (b + i) = Some x2 ->
         nth_error m (y + i) = Some x3 -> nth_error m' (y + i) = Some (g x1 x2 x3).

  (** complex numbers: real part in the even words *)
  Definition complex_at (m : list T) (p : nat) (z : T * T) : Prop :=
    nth_error m p = Some (fst z) /\ nth_error m (p + 1) = Some (snd z).
  Definition complex_result (g : T * T -> T * T -> T * T -> T * T) (n a b y : nat) (m m' : list T)
    : Prop :=
    length m' = length m
    /\ (forall j, j < y \/ y + 2 * n <= j -> nth_error m' j = nth_error m j)
    /\ forall i x1 x2 x3, i < n ->
         complex_at m (a + 2 * i) x1 -> complex_at m (b + 2 * i) x2 ->
         complex_at m (y + 2 * i) x3 -> complex_at m' (y + 2 * i) (g x1 x2 x3).

  (** all operands lie inside the memory; sources are the destination or disjoint from it *)
  Definition operands_ok (len a b y : nat) (m : list T) : Prop :=
    a + len <= length m /\ b + len <= length m /\ y + len <= length m
    /\ compatible a y len /\ compatible b y len.

  Lemma words1 (m : list T) p x : nth_error m p = Some x -> words m 1 p = [x].
  Proof.
    intros E. apply nth_error_ext. intros [|i]; rewrite words_nth; simpl.
    - now rewrite Nat.add_0_r.
    - now destruct i.
  Qed.

  Lemma words2 (m : list T) p z : complex_at m p z -> words m 2 p = [fst z; snd z].
  Proof.
    intros [E1 E2]. apply nth_error_ext. intros [|[|i]]; rewrite words_nth; simpl.
    - now rewrite Nat.add_0_r.
    - exact E2.
    - now destruct i.
  Qed.

  Lemma elementwise_real f g n a b y m m' :
    (forall x1 x2 x3, f [x1] [x2] [x3] = [g x1 x2 x3]) ->
    elementwise 1 f n a b y m m' -> real_result g n a b y m m'.
  Proof.
    intros F (L & O & I). split; [exact L|]. split; [intros; apply O; lia|].
    intros i x1 x2 x3 Hi E1 E2 E3. specialize (I i Hi). rewrite Nat.mul_1_r in I.
    rewrite (words1 _ _ _ E1), (words1 _ _ _ E2), (words1 _ _ _ E3), F in I.
    assert (W := words_nth m' 1 (y + i) 0). rewrite I in W. simpl in W.
    rewrite Nat.add_0_r in W. congruence.
  Qed.

  Lemma elementwise_complex f g n a b y m m' :
    (forall x1 x2 x3, f [fst x1; snd x1] [fst x2; snd x2] [fst x3; snd x3]
                      = [fst (g x1 x2 x3); snd (g x1 x2 x3)]) ->
    elementwise 2 f n a b y m m' -> complex_result g n a b y m m'.
  Proof.
    intros F (L & O & I). split; [exact L|]. split; [intros; apply O; lia|].
    intros i x1 x2 x3 Hi E1 E2 E3. specialize (I i Hi). rewrite Nat.mul_comm in I.
    rewrite (words2 _ _ _ E1), (words2 _ _ _ E2), (words2 _ _ _ E3), F in I.
    split.
    - assert (W := words_nth m' 2 (y + 2 * i) 0). rewrite I in W. cbn in W.
      rewrite Nat.add_0_r in W. symmetry. exact W.
    - assert (W := words_nth m' 2 (y + 2 * i) 1). rewrite I in W. cbn in W. symmetry. exact W.
  Qed.
End Spec.

(** *** Composition of loops *)
Section Stages.
  Context {T : Type}.
  Variables (e : nat) (f : list T -> list T -> list T -> list T) (n a b y : nat) (m0 : list T).
  Variable Hops : operands_ok (n * e) a b y m0.

  Lemma stage w W ok body s :
    0 < w -> W = w * e -> body_ok e f w ok body ->
    (forall a b y, ok a b y -> ok (a + W) (b + W) (y + W)) ->
    progress e f n a b y m0 s -> (w <= cnt s -> ok (p1 s) (p2 s) (py s)) ->
    exists s', loop w W body s = Ok s' /\ progress e f n a b y m0 s' /\ cnt s' < w
      /\ exists j, p1 s' = p1 s + j * W /\ p2 s' = p2 s + j * W /\ py s' = py s + j * W.
  Proof.
    intros Hw -> HB Hok P O. destruct Hops as (La & Lb & Ly & Ca & Cb).
    eapply loop_progress; eauto.
  Qed.

  Lemma last_stage W body s :
    W = e -> body_ok e f 1 always body -> progress e f n a b y m0 s ->
    exists m', (s' <- loop 1 W body s ;; finish s') = Ok (NoError, m')
               /\ elementwise e f n a b y m0 m'.
  Proof.
    intros HW HB P.
    destruct (stage 1 W always body s) as (s' & E & P' & C & _); auto; try lia.
    { intros; exact Logic.I. }
    rewrite E. cbn [bind]. exists (mem s'). split; [reflexivity|].
    eapply progress_done; eauto.
  Qed.

  Lemma reference : elementary e f ->
    exists m', ref_loop e f n a b y m0 = Ok (NoError, m') /\ elementwise e f n a b y m0 m'.
  Proof. destruct Hops as (La & Lb & Ly & Ca & Cb). intros. now apply ref_loop_ok. Qed.
End Stages.

Lemma ref_loop_ext {T} e (f f' : list T -> list T -> list T -> list T) n a b y m :
  (forall x1 x2 x3, f x1 x2 x3 = f' x1 x2 x3) -> ref_loop e f n a b y m = ref_loop e f' n a b y m.
Proof.
  intros F. unfold ref_loop. f_equal. unfold loop.
  set (s := MkPos n a b y m). generalize (cnt s) as fuel. clearbody s. intros fuel. revert s.
  induction fuel as [|fuel IH]; intros s; simpl; [reflexivity|].
  destruct (cnt s <? 1); [reflexivity|].
  destruct (mem_read (mem s) (p1 s) e); try reflexivity. cbn [bind].
  destruct (mem_read (mem s) (p2 s) e); try reflexivity. cbn [bind].
  destruct (mem_read (mem s) (py s) e); try reflexivity. cbn [bind].
  rewrite F. destruct (mem_write (mem s) (py s) (f' a0 a1 a2)); try reflexivity. cbn [bind].
  apply IH.
Qed.

Section Whole.
  Context {T : Type} (zero : T) (add sub mul : T -> T -> T) (fma : T -> T -> T -> T).
  Variable add_comm : forall x y, add x y = add y x.
  Variable mul_comm : forall x y, mul x y = mul y x.

  Definition fma_exact (avx2 : bool) : Prop :=
    avx2 = true -> forall x y z, fma x y z = add (mul x y) z.

  Lemma aligned_from_check e f1 f2 y alignment w k :
    check_ptr e f1 alignment && check_ptr e f2 alignment && check_ptr e y alignment = true ->
    w = 2 ^ k -> w <= alignment -> aligned3 (w * e) f1 f2 y.
  Proof.
    rewrite !andb_true_iff. intros [[C1 C2] C3] W L.
    split; [|split]; eapply check_ptr_divides; eauto.
  Qed.

  Lemma when_aligned_shift al w W a b y j :
    Nat.divide w W -> when_aligned al w a b y ->
    when_aligned al w (a + j * W) (b + j * W) (y + j * W).
  Proof. intros D H A. apply aligned3_shift; auto. Qed.

  (** an optional first loop *)
  Lemma avx_stage e f n a b y (m : list T) (O : operands_ok (n * e) a b y m) (avx : bool) w W ok
        (body : @body_t T) :
    0 < w -> W = w * e -> body_ok e f w ok body ->
    (forall a b y, ok a b y -> ok (a + W) (b + W) (y + W)) -> ok a b y ->
    exists s : @pos T, (if avx then loop w W body (MkPos n a b y m) else Ok (MkPos n a b y m)) = Ok s
      /\ progress e f n a b y m s
      /\ exists j, p1 s = a + j * W /\ p2 s = b + j * W /\ py s = y + j * W.
  Proof.
    intros Hw HW HB Hok H0. destruct avx.
    - destruct (stage e f n a b y m O w W ok body (MkPos n a b y m)) as (s' & E & P & _ & J);
        auto using progress_start.
      exists s'. auto.
    - eexists; split; [reflexivity|]. split; [apply progress_start|]. exists 0. simpl. lia.
  Qed.

  Lemma check_aligned e f1 f2 y alignment w W k :
    check_ptr e f1 alignment && check_ptr e f2 alignment && check_ptr e y alignment = true ->
    w = 2 ^ k -> W = w * e -> when_aligned (w <=? alignment) W f1 f2 y.
  Proof. intros C K -> X. apply Nat.leb_le in X. eapply aligned_from_check; eauto. Qed.

  Lemma operands_1 n a b y (m : list T) : operands_ok n a b y m -> operands_ok (n * 1) a b y m.
  Proof. now rewrite Nat.mul_1_r. Qed.

  (** vectorMultiply *)
  Lemma multiply_real_ok avx big k lanes f1 f2 r n alignment m :
    big = 2 ^ k -> operands_ok n f1 f2 r m ->
    check_ptr 1 f1 alignment && check_ptr 1 f2 alignment && check_ptr 1 r alignment = true ->
    exists m', multiply_real zero mul avx big lanes f1 f2 r n alignment m = Ok (NoError, m')
               /\ elementwise 1 (f_mul mul) n f1 f2 r m m'.
  Proof.
    intros K O C. unfold multiply_real. rewrite C. apply operands_1 in O.
    assert (B0 : 0 < big) by (subst; assert (2 ^ k <> 0) by (apply Nat.pow_nonzero; lia); lia).
    assert (BW : big = big * 1) by lia.
    destruct (avx_stage 1 (f_mul mul) n f1 f2 r m O avx big big _ _ B0 BW
                (multiply_body_ok mul (big <=? alignment) big)) as (s1 & -> & P1 & _);
      eauto using when_aligned_step, check_aligned.
    cbn [bind]. eapply last_stage; eauto using multiply_ss_body_ok.
  Qed.

  Lemma multiply_complex_ok avx f1 f2 r n alignment m :
    operands_ok (n * 2) f1 f2 r m ->
    check_ptr 2 f1 alignment && check_ptr 2 f2 alignment && check_ptr 2 r alignment = true ->
    exists m', multiply_complex add sub mul avx f1 f2 r n alignment m = Ok (NoError, m')
               /\ elementwise 2 (f_cmul add sub mul) n f1 f2 r m m'.
  Proof.
    intros O C. unfold multiply_complex. rewrite C.
    assert (A4 : when_aligned (4 <=? alignment) 8 f1 f2 r)
      by (apply (check_aligned _ _ _ _ _ 4 8 2 C); reflexivity).
    assert (A2 : when_aligned (2 <=? alignment) 4 f1 f2 r)
      by (apply (check_aligned _ _ _ _ _ 2 4 1 C); reflexivity).
    set (whole := bind _ _).
    assert (G : exists s2, whole = (s' <- loop 1 2 (cmultiply1_body add sub mul) s2 ;; finish s')
                           /\ progress 2 (f_cmul add sub mul) n f1 f2 r m s2).
    { unfold whole; clear whole. destruct avx.
      2:{ eexists; split; [reflexivity|apply progress_start]. }
      destruct (stage 2 (f_cmul add sub mul) n f1 f2 r m O 4 8 _
                  (cmultiply_body add sub mul (4 <=? alignment) (4 <=? alignment) 8)
                  (MkPos n f1 f2 r m) ltac:(lia) eq_refl
                  (cmultiply_body_ok add sub mul mul_comm (4 <=? alignment) (4 <=? alignment) 4 8 eq_refl))
        as (s1 & -> & P1 & _ & j & J1 & J2 & J3); auto using progress_start.
      - intros a b y [A B]. split; [|intros X; specialize (B X)];
          [intros X; destruct (A X); split|]; apply Nat.divide_add_r; auto; exists 1; reflexivity.
      - intros _. split; intros X; destruct (A4 X) as (? & ? & ?); auto.
      - cbn [bind]. destruct (2 <=? alignment).
        + destruct (stage 2 (f_cmul add sub mul) n f1 f2 r m O 2 4 _
                      (cmultiply_body add sub mul false true 4) s1 ltac:(lia) eq_refl
                      (cmultiply_body_ok add sub mul mul_comm false true 2 4 eq_refl))
            as (s2 & -> & P2 & _); auto.
          * intros a b y [_ B]. split; [discriminate|]. intros X.
            apply Nat.divide_add_r; auto. exists 1; reflexivity.
          * intros _. split; [discriminate|]. intros _. rewrite J3. simpl py.
            destruct (A2 eq_refl) as (_ & _ & D). apply Nat.divide_add_r; auto.
            exists (j * 2). lia.
          * exists s2. split; [reflexivity|exact P2].
        + exists s1. split; [reflexivity|exact P1]. }
    destruct G as (s2 & -> & P2).
    eapply last_stage; eauto using cmultiply1_body_ok.
  Qed.

  (** vectorMultiplyAddInplace *)
  Lemma multiply_add_real_ok avx avx2 big small k f1 f2 acc n alignment m :
    fma_exact avx2 -> big = 2 ^ k -> 0 < small -> operands_ok n f1 f2 acc m ->
    check_ptr 1 f1 alignment && check_ptr 1 f2 alignment && check_ptr 1 acc alignment = true ->
    exists m', multiply_add_real zero add mul fma avx avx2 big small f1 f2 acc n alignment m = Ok (NoError, m')
               /\ elementwise 1 (f_madd add mul) n f1 f2 acc m m'.
  Proof.
    intros F K Sm O C. unfold multiply_add_real. rewrite C. apply operands_1 in O.
    assert (B0 : 0 < big) by (subst; assert (2 ^ k <> 0) by (apply Nat.pow_nonzero; lia); lia).
    assert (BW : big = big * 1) by lia.
    destruct (avx_stage 1 (f_madd add mul) n f1 f2 acc m O avx big big _ _ B0 BW
                (madd_body_ok add mul fma add_comm avx2 (big <=? alignment) big F))
      as (s1 & -> & P1 & _); eauto using when_aligned_step, check_aligned.
    cbn [bind].
    destruct (stage 1 (f_madd add mul) n f1 f2 acc m O small small _ _ s1 Sm ltac:(lia)
                (madd_body_ok add mul fma add_comm avx2 false small F))
      as (s2 & -> & P2 & _); auto using when_aligned_step.
    { intros _ X. discriminate X. }
    cbn [bind]. eapply last_stage; eauto using madd_ss_body_ok.
  Qed.

  Lemma multiply_add_complex_ok avx f1 f2 acc n alignment m :
    operands_ok (n * 2) f1 f2 acc m ->
    check_ptr 2 f1 alignment && check_ptr 2 f2 alignment && check_ptr 2 acc alignment = true ->
    exists m', multiply_add_complex add sub mul avx f1 f2 acc n alignment m = Ok (NoError, m')
               /\ elementwise 2 (f_cmadd add sub mul) n f1 f2 acc m m'.
  Proof.
    intros O C. unfold multiply_add_complex. rewrite C.
    assert (A4 : when_aligned (4 <=? alignment) 8 f1 f2 acc)
      by (apply (check_aligned _ _ _ _ _ 4 8 2 C); reflexivity).
    assert (A2 : when_aligned (2 <=? alignment) 4 f1 f2 acc)
      by (apply (check_aligned _ _ _ _ _ 2 4 1 C); reflexivity).
    set (whole := bind _ _).
    assert (G : exists s2, whole = (s' <- loop 1 2 (cmadd1_body add sub mul) s2 ;; finish s')
                           /\ progress 2 (f_cmadd add sub mul) n f1 f2 acc m s2).
    { unfold whole; clear whole. destruct avx.
      2:{ eexists; split; [reflexivity|apply progress_start]. }
      destruct (stage 2 (f_cmadd add sub mul) n f1 f2 acc m O 4 8 _
                  (cmadd_body add sub mul (4 <=? alignment) 8)
                  (MkPos n f1 f2 acc m) ltac:(lia) eq_refl
                  (cmadd_body_ok add sub mul add_comm mul_comm (4 <=? alignment) 4 8 eq_refl))
        as (s1 & -> & P1 & _ & j & J1 & J2 & J3); auto using progress_start, when_aligned_step.
      cbn [bind]. destruct (2 <=? alignment).
      - destruct (stage 2 (f_cmadd add sub mul) n f1 f2 acc m O 2 4 _
                      (cmadd4_body add sub mul) s1 ltac:(lia) eq_refl
                      (cmadd4_body_ok add sub mul mul_comm))
            as (s2 & -> & P2 & _); auto using when_aligned_step.
        + intros _. rewrite J1, J2, J3. simpl. apply when_aligned_shift; auto. exists 2; reflexivity.
        + exists s2. split; [reflexivity|exact P2].
      - exists s1. split; [reflexivity|exact P1]. }
    destruct G as (s2 & -> & P2).
    eapply last_stage; eauto using cmadd1_body_ok.
  Qed.

  (** vectorMultiplyConstantAddInplace; [alignment] must describe the operands truly *)
  Lemma constant_add_float_ok (avx : bool) avx2 c x acc n alignment m :
    fma_exact avx2 -> operands_ok n x x acc m ->
    check_ptr 1 x alignment && check_ptr 1 acc alignment = true ->
    (4 <= (if avx then n mod 8 else n) -> Nat.divide 4 acc) ->
    exists m', constant_add_float zero add mul fma avx avx2 c x acc n alignment m = Ok (NoError, m')
               /\ elementwise 1 (f_const add mul [c]) n x x acc m m'.
  Proof.
    intros F O C A. unfold constant_add_float. apply operands_1 in O.
    apply andb_true_iff in C as [Cx Ca].
    assert (S1 : exists s : @pos T,
      (if avx then loop 8 8 (constant_add_body add mul fma avx2 (8 <=? alignment) (8 <=? alignment) 8 c)
                     (MkPos n x x acc m) else Ok (MkPos n x x acc m)) = Ok s
      /\ progress 1 (f_const add mul [c]) n x x acc m s
      /\ cnt s = (if avx then n mod 8 else n)
      /\ exists j, py s = acc + j * 8).
    { destruct avx.
      - destruct (stage 1 (f_const add mul [c]) n x x acc m O 8 8 _ _ (MkPos n x x acc m)
                    ltac:(lia) eq_refl
                    (constant_add_body_ok add mul fma add_comm mul_comm avx2 (8 <=? alignment) (8 <=? alignment) 8 c F))
          as (s1 & -> & P1 & C1 & j & J1 & J2 & J3); auto using progress_start.
        + intros a b y [H1 H2]. split; [intros X; destruct (H1 X); split|intros X; specialize (H2 X)];
            apply Nat.divide_add_r; auto; exists 1; reflexivity.
        + intros _. cbn [p1 p2 py]. split; intros X; apply Nat.leb_le in X; [split|];
            apply (check_ptr_divides 1 _ alignment 8 3); auto.
        + exists s1. split; [reflexivity|]. split; [exact P1|]. split; [|exists j; exact J3].
          destruct P1 as (k & K & _ & _ & Ky & _). rewrite J3 in Ky. simpl in Ky.
          apply (Nat.mod_unique n 8 j); lia.
      - eexists; split; [reflexivity|]. split; [apply progress_start|]. split; [reflexivity|].
        exists 0. simpl. lia. }
    destruct S1 as (s1 & -> & P1 & C1 & j & J). cbn [bind].
    destruct (stage 1 (f_const add mul [c]) n x x acc m O 4 4 _ _ s1 ltac:(lia) eq_refl
                (constant_add_body_ok add mul fma add_comm mul_comm avx2 false true 4 c F))
      as (s2 & -> & P2 & _); auto.
    - intros a b y [_ H2]. split; [discriminate|]. intros X. apply Nat.divide_add_r; auto.
      exists 1; reflexivity.
    - intros H. split; [discriminate|]. intros _. rewrite J. rewrite C1 in H.
      apply Nat.divide_add_r; [auto|]. exists (j * 2). lia.
    - cbn [bind]. eapply last_stage; eauto using constant_add_ss_body_ok.
  Qed.

  Lemma constant_add_complex_ok avx re im x acc n alignment m :
    operands_ok (n * 2) x x acc m ->
    check_ptr 2 x alignment && check_ptr 2 acc alignment = true ->
    exists m', constant_add_complex add sub mul avx re im x acc n alignment m = Ok (NoError, m')
               /\ elementwise 2 (f_cconst add sub mul [re; im]) n x x acc m m'.
  Proof.
    intros O C. unfold constant_add_complex.
    assert (C3 : check_ptr 2 x alignment && check_ptr 2 x alignment && check_ptr 2 acc alignment = true).
    { apply andb_true_iff in C as [-> ->]. reflexivity. }
    assert (A4 : when_aligned (4 <=? alignment) 8 x x acc)
      by (apply (check_aligned _ _ _ _ _ 4 8 2 C3); reflexivity).
    assert (A2 : when_aligned (2 <=? alignment) 4 x x acc)
      by (apply (check_aligned _ _ _ _ _ 2 4 1 C3); reflexivity).
    destruct (avx_stage 2 (f_cconst add sub mul [re; im]) n x x acc m O avx 4 8 _ _ ltac:(lia) eq_refl
                (cconstant_add_body_ok add sub mul add_comm (4 <=? alignment) 4 8 re im eq_refl))
      as (s1 & -> & P1 & j & J1 & J2 & J3); auto using when_aligned_step.
    cbn [bind].
    assert (S2 : exists s2, (if 2 <=? alignment then loop 2 4 (cconstant_add_body add sub mul true 4 re im) s1
                             else Ok s1) = Ok s2
                 /\ progress 2 (f_cconst add sub mul [re; im]) n x x acc m s2).
    { destruct (2 <=? alignment).
      - destruct (stage 2 (f_cconst add sub mul [re; im]) n x x acc m O 2 4 _ _ s1 ltac:(lia) eq_refl
                (cconstant_add_body_ok add sub mul add_comm true 2 4 re im eq_refl))
          as (s2 & -> & P2 & _); auto using when_aligned_step.
        + intros _. rewrite J1, J2, J3. apply when_aligned_shift; auto. exists 2; reflexivity.
        + eauto.
      - eauto. }
    destruct S2 as (s2 & -> & P2). cbn [bind].
    eapply last_stage; eauto using cconstant_add1_body_ok.
  Qed.

  (** vectorRampScaling *)
  Lemma ramp_float_ok avx avx2 debug accumulate base gain x ramp y n alignment m :
    fma_exact avx2 -> operands_ok n x ramp y m ->
    check_ptr 1 x alignment && check_ptr 1 ramp alignment && check_ptr 1 y alignment = true ->
    exists m', ramp_float zero add mul fma avx avx2 debug accumulate base gain x ramp y n alignment m
               = Ok (NoError, m')
               /\ elementwise 1 (f_ramp add mul accumulate base gain) n x ramp y m m'.
  Proof.
    intros F O C. unfold ramp_float. rewrite C. cbn [negb]. rewrite andb_false_r. apply operands_1 in O.
    destruct (avx_stage 1 (f_ramp add mul accumulate base gain) n x ramp y m O avx 8 8 _ _ ltac:(lia) eq_refl
                (ramp_body_ok add mul fma add_comm mul_comm avx2 accumulate (8 <=? alignment) 8 base gain F))
      as (s1 & -> & P1 & j & J1 & J2 & J3); auto using when_aligned_step.
    { apply (check_aligned _ _ _ _ _ 8 8 3 C); reflexivity. }
    cbn [bind].
    destruct (stage 1 (f_ramp add mul accumulate base gain) n x ramp y m O 4 4 _ _ s1 ltac:(lia) eq_refl
                (ramp_body_ok add mul fma add_comm mul_comm avx2 accumulate (4 <=? alignment) 4 base gain F))
      as (s2 & -> & P2 & _); auto using when_aligned_step.
    { intros _. rewrite J1, J2, J3. apply when_aligned_shift; [exists 2; reflexivity|].
      apply (check_aligned _ _ _ _ _ 4 4 2 C); reflexivity. }
    cbn [bind]. eapply last_stage; eauto using ramp_ss_body_ok.
  Qed.
End Whole.
