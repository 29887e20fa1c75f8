(** The loop bodies of the kernels perform the elementwise operation of the reference
    functions; the kernels as a whole do so on all elements. *)
From Verif Require Import Base Memory SimdModel SimdProofs.
Local Open Scope res_scope.

Section Kernels.
  Context {T : Type} (zero : T) (add sub mul : T -> T -> T) (fma : T -> T -> T -> T).
  Variable add_comm : forall x y, add x y = add y x.
  Variable mul_comm : forall x y, mul x y = mul y x.

  Local Notation rmul := (rmul mul).
  Local Notation radd := (radd add).
  Local Notation cmul := (cmul add sub mul).
  Local Notation cadd := (cadd add).
  Local Notation elements := (list T).

  (** elementwise functions of the reference implementation *)
  Definition f_mul (a b c : elements) := rmul a b.
  Definition f_madd (a b c : elements) := radd c (rmul a b).
  Definition f_cmul (a b c : elements) := cmul a b.
  Definition f_cmadd (a b c : elements) := cadd c (cmul a b).
  Definition f_const (k : elements) (a b c : elements) := radd c (rmul k a).
  Definition f_cconst (k : elements) (a b c : elements) := cadd c (cmul k a).
  Definition f_ramp (acc : bool) (base gain : T) (a r o : elements) :=
    match a, r, o with
    | [a], [r], [o] =>
        let v := mul (add base (mul gain r)) a in [if acc then add o v else v]
    | _, _, _ => []
    end.

  Ltac len1 :=
    repeat match goal with
      | H : length ?l = 0 |- _ => destruct l; [clear H|discriminate H]
      | H : length ?l = S _ |- _ => destruct l; [discriminate H|]; simpl in H; apply Nat.succ_inj in H
      end.
  Ltac elem := intros [|? [|? [|? ?]]] [|? [|? [|? ?]]] [|? [|? [|? ?]]] A B C; simpl in *;
               try discriminate A; try discriminate B; try discriminate C; reflexivity.
  Ltac cm :=
    first
      [ reflexivity
      | match goal with
        | |- _ :: _ = _ :: _ => solve [f_equal; cm]
        | |- sub _ _ = sub _ _ => solve [f_equal; cm]
        | |- add _ _ = add _ _ =>
            first [ solve [f_equal; cm] | solve [etransitivity; [apply add_comm|]; f_equal; cm] ]
        | |- mul _ _ = mul _ _ =>
            first [ solve [f_equal; cm] | solve [etransitivity; [apply mul_comm|]; f_equal; cm] ]
        end ].
  Lemma f_mul_el : elementary 1 f_mul. Proof. elem. Qed.
  Lemma f_madd_el : elementary 1 f_madd. Proof. elem. Qed.
  Lemma f_cmul_el : elementary 2 f_cmul. Proof. elem. Qed.
  Lemma f_cmadd_el : elementary 2 f_cmadd. Proof. elem. Qed.
  Lemma f_const_el k : elementary 1 (f_const [k]). Proof. elem. Qed.
  Lemma f_cconst_el re im : elementary 2 (f_cconst [re; im]). Proof. elem. Qed.
  Lemma f_ramp_el acc base gain : elementary 1 (f_ramp acc base gain). Proof. elem. Qed.

  (** *** Loads and stores *)
  Lemma load_ok al w (m : list T) p :
    p + w <= length m -> (al = true -> Nat.divide w p) -> load al w m p = Ok (words m w p).
  Proof.
    intros L A. unfold load. rewrite words_read by exact L.
    destruct al; simpl; [|reflexivity].
    destruct (A eq_refl) as [k ->]. destruct w; [now rewrite Nat.mul_0_r|].
    rewrite Nat.mod_mul by lia. reflexivity.
  Qed.

  Lemma store_eq al w (m : list T) p v :
    length v = w -> (al = true -> Nat.divide w p) -> store al w m p v = mem_write m p v.
  Proof.
    intros L A. unfold store. rewrite firstn_all2 by lia.
    destruct al; simpl; [|reflexivity].
    destruct (A eq_refl) as [k ->]. destruct w; [now rewrite Nat.mul_0_r|].
    rewrite Nat.mod_mul by lia. reflexivity.
  Qed.

  Lemma load_ss_ok lanes (m : list T) p :
    p + 1 <= length m -> load_ss zero lanes m p = Ok (words m 1 p ++ repeat zero (lanes - 1)).
  Proof. intros L. unfold load_ss. rewrite words_read by exact L. reflexivity. Qed.

  Lemma loadl_ok a (m : list T) p :
    p + 2 <= length m -> loadl a m p = Ok (words m 2 p ++ skipn 2 a).
  Proof. intros L. unfold loadl. rewrite words_read by exact L. reflexivity. Qed.

  Lemma load1_ok (m : list T) p :
    p + 2 <= length m ->
    exists x y, words m 2 p = [x; y] /\ load1 m p = Ok x /\ load1 m (p + 1) = Ok y.
  Proof.
    intros L. unfold load1. rewrite !words_read by lia. simpl.
    assert (L2 := words_length m 2 p L).
    destruct (words m 2 p) as [|x [|y [|? ?]]] eqn:E; try discriminate.
    exists x, y. split; [reflexivity|].
    rewrite <- (words_words m 2 1 p 1) by lia.
    replace (words m 1 p) with (firstn 1 (skipn 0 (words m 2 p)))
      by (rewrite words_words by lia; f_equal; lia).
    rewrite E. split; reflexivity.
  Qed.

  (** *** Register contents *)
  Lemma mul_ps_chunks : forall w a b c, length a = w -> length b = w -> length c = w ->
    mul_ps mul a b = chunks 1 f_mul w a b c.
  Proof.
    induction w as [|w IH]; intros a b c A B C; len1; [reflexivity|].
    simpl. rewrite <- IH by assumption. reflexivity.
  Qed.

  Lemma madd_ps_chunks avx2 :
    (avx2 = true -> forall x y z, fma x y z = add (mul x y) z) ->
    forall w a b c, length a = w -> length b = w -> length c = w ->
    madd_ps add mul fma avx2 a b c = chunks 1 f_madd w a b c.
  Proof.
    intros F. induction w as [|w IH]; intros a b c A B C; len1.
    - destruct avx2; reflexivity.
    - simpl. rewrite <- IH by assumption. unfold madd_ps, fmadd_ps, add_ps, mul_ps, map2.
      destruct avx2; simpl; [rewrite F by reflexivity|]; cm.
  Qed.

  Lemma const_ps_chunks avx2 k :
    (avx2 = true -> forall x y z, fma x y z = add (mul x y) z) ->
    forall w a b c, length a = w -> length b = w -> length c = w ->
    madd_ps add mul fma avx2 a (set1 w k) c = chunks 1 (f_const [k]) w a b c.
  Proof.
    intros F. induction w as [|w IH]; intros a b c A B C; len1.
    - destruct avx2; reflexivity.
    - simpl. rewrite <- IH by assumption. unfold madd_ps, fmadd_ps, add_ps, mul_ps, map2.
      destruct avx2; simpl; [rewrite F by reflexivity|]; cm.
  Qed.

  Lemma ramp_ps_chunks avx2 acc base gain :
    (avx2 = true -> forall x y z, fma x y z = add (mul x y) z) ->
    forall w a r o, length a = w -> length r = w -> length o = w ->
    (if acc : bool
     then madd_ps add mul fma avx2 (madd_ps add mul fma avx2 r (set1 w gain) (set1 w base)) a o
     else mul_ps mul (madd_ps add mul fma avx2 r (set1 w gain) (set1 w base)) a)
    = chunks 1 (f_ramp acc base gain) w a r o.
  Proof.
    intros F. induction w as [|w IH]; intros a b c A B C; len1.
    - destruct avx2, acc; reflexivity.
    - simpl. rewrite <- IH by assumption. unfold madd_ps, fmadd_ps, add_ps, mul_ps, map2.
      destruct avx2, acc; simpl; rewrite ?F by reflexivity; cm.
  Qed.

  Lemma complex_chunks : forall w a b c, length a = w * 2 -> length b = w * 2 -> length c = w * 2 ->
    complex_product add sub mul a b = chunks 2 f_cmul w a b c.
  Proof.
    induction w as [|w IH]; intros a b c A B C; simpl Nat.mul in *; len1; [reflexivity|].
    simpl. rewrite <- IH by assumption. unfold complex_product, add_ps, mul_ps, map2. simpl. cm.
  Qed.

  Lemma complex_madd_chunks : forall w a b c,
    length a = w * 2 -> length b = w * 2 -> length c = w * 2 ->
    add_ps add (complex_product add sub mul a b) c = chunks 2 f_cmadd w a b c.
  Proof.
    induction w as [|w IH]; intros a b c A B C; simpl Nat.mul in *; len1; [reflexivity|].
    simpl. rewrite <- IH by assumption. unfold complex_product, add_ps, mul_ps, map2. simpl. cm.
  Qed.

  Lemma complex_madd_chunks' : forall w a b c,
    length a = w * 2 -> length b = w * 2 -> length c = w * 2 ->
    add_ps add c (complex_product add sub mul a b) = chunks 2 f_cmadd w a b c.
  Proof.
    induction w as [|w IH]; intros a b c A B C; simpl Nat.mul in *; len1; [reflexivity|].
    simpl. rewrite <- IH by assumption. unfold complex_product, add_ps, mul_ps, map2. simpl. cm.
  Qed.

  Lemma complex_const_chunks re im : forall w a b c,
    length a = w * 2 -> length b = w * 2 -> length c = w * 2 ->
    add_ps add (complex_product1 add sub mul (set1 (w * 2) re) (set1 (w * 2) im) a) c
    = chunks 2 (f_cconst [re; im]) w a b c.
  Proof.
    induction w as [|w IH]; intros a b c A B C; simpl Nat.mul in *; len1; [reflexivity|].
    simpl. rewrite <- IH by assumption. unfold complex_product1, add_ps, mul_ps, map2. simpl. cm.
  Qed.

  (** *** Bodies *)
  Definition when_aligned (al : bool) (w : nat) (a b y : nat) : Prop := al = true -> aligned3 w a b y.

  Lemma when_aligned_step al w a b y :
    when_aligned al w a b y -> when_aligned al w (a + w) (b + w) (y + w).
  Proof. intros H A. apply aligned3_step. auto. Qed.

  Lemma store_chunks al e f w W a b y (m : list T) v :
    elementary e f -> W = w * e -> a + W <= length m -> b + W <= length m -> y + W <= length m ->
    (al = true -> Nat.divide W y) ->
    v = chunks e f w (words m W a) (words m W b) (words m W y) ->
    exists m', store al W m y v = Ok m' /\ elementwise e f w a b y m m'.
  Proof.
    intros Hf -> La Lb Ly A ->. rewrite store_eq; auto.
    - now apply write_elementwise.
    - apply chunks_length; auto using words_length.
  Qed.

  Ltac loads A := rewrite ?load_ok by (try lia; intros X; apply (A X)); cbn [bind].

  Lemma multiply_body_ok al w :
    body_ok 1 f_mul w (when_aligned al w) (multiply_body mul al w).
  Proof.
    intros a b y m La Lb Ly A. rewrite Nat.mul_1_r in *. unfold multiply_body. loads A.
    apply store_chunks; auto using f_mul_el; try lia; [intros X; apply (A X)|].
    apply mul_ps_chunks; auto using words_length.
  Qed.

  Lemma madd_body_ok avx2 al w :
    (avx2 = true -> forall x y z, fma x y z = add (mul x y) z) ->
    body_ok 1 f_madd w (when_aligned al w) (madd_body add mul fma avx2 al al w).
  Proof.
    intros F a b y m La Lb Ly A. rewrite Nat.mul_1_r in *. unfold madd_body. loads A.
    apply store_chunks; auto using f_madd_el; try lia; [intros X; apply (A X)|].
    apply madd_ps_chunks; auto using words_length.
  Qed.

  Lemma constant_add_body_ok avx2 lal sal w c :
    (avx2 = true -> forall x y z, fma x y z = add (mul x y) z) ->
    body_ok 1 (f_const [c]) w
      (fun a b y => (lal = true -> Nat.divide w a /\ Nat.divide w y) /\ (sal = true -> Nat.divide w y))
      (constant_add_body add mul fma avx2 lal sal w c).
  Proof.
    intros F a b y m La Lb Ly [A S]. rewrite Nat.mul_1_r in *. unfold constant_add_body. loads A.
    apply store_chunks with (b := b); auto using f_const_el; try lia.
    apply const_ps_chunks; auto using words_length.
  Qed.

  Lemma ramp_body_ok avx2 acc al w base gain :
    (avx2 = true -> forall x y z, fma x y z = add (mul x y) z) ->
    body_ok 1 (f_ramp acc base gain) w (when_aligned al w)
      (ramp_body add mul fma avx2 acc al w base gain).
  Proof.
    intros F a b y m La Lb Ly A. rewrite Nat.mul_1_r in *. unfold ramp_body. loads A.
    assert (E := ramp_ps_chunks avx2 acc base gain F w (words m w a) (words m w b) (words m w y)).
    destruct acc; loads A;
      (apply store_chunks; auto using f_ramp_el; try lia; [intros X; apply (A X)|]);
      rewrite <- E; auto using words_length.
  Qed.

  Lemma cmultiply_body_ok lal sal w W :
    W = w * 2 ->
    body_ok 2 f_cmul w
      (fun a b y => (lal = true -> Nat.divide W a /\ Nat.divide W b) /\ (sal = true -> Nat.divide W y))
      (cmultiply_body add sub mul lal sal W).
  Proof.
    intros HW a b y m La Lb Ly [A S]. rewrite <- HW in *. unfold cmultiply_body. loads A.
    apply store_chunks; auto using f_cmul_el. subst W.
    apply complex_chunks; auto using words_length.
  Qed.

  Lemma cmadd_body_ok al w W :
    W = w * 2 ->
    body_ok 2 f_cmadd w (when_aligned al W) (cmadd_body add sub mul al W).
  Proof.
    intros HW a b y m La Lb Ly A. rewrite <- HW in *. unfold cmadd_body. loads A.
    apply store_chunks; auto using f_cmadd_el; [intros X; apply (A X)|]. subst W.
    apply complex_madd_chunks; auto using words_length.
  Qed.

  Lemma cmadd4_body_ok :
    body_ok 2 f_cmadd 2 (when_aligned true 4) (cmadd4_body add sub mul).
  Proof.
    intros a b y m La Lb Ly A. change (2 * 2) with 4 in *. unfold cmadd4_body. loads A.
    apply store_chunks; auto using f_cmadd_el; [intros X; apply (A X)|].
    apply (complex_madd_chunks' 2); auto using words_length.
  Qed.

  Lemma cconstant_add_body_ok al w W re im :
    W = w * 2 ->
    body_ok 2 (f_cconst [re; im]) w (when_aligned al W) (cconstant_add_body add sub mul al W re im).
  Proof.
    intros HW a b y m La Lb Ly A. rewrite <- HW in *. unfold cconstant_add_body. loads A.
    apply store_chunks with (b := b); auto using f_cconst_el; [intros X; apply (A X)|]. subst W.
    apply complex_const_chunks; auto using words_length.
  Qed.

  (** Scalar code *)
  Lemma write_chunks1 e f a b y (m : list T) v :
    elementary e f -> a + e <= length m -> b + e <= length m -> y + e <= length m ->
    v = f (words m e a) (words m e b) (words m e y) ->
    exists m', mem_write m y v = Ok m' /\ elementwise e f 1 a b y m m'.
  Proof.
    intros Hf La Lb Ly ->.
    destruct (write_elementwise e f 1 a b y m) as (m' & E & El); auto; try lia.
    exists m'. split; [|exact El]. rewrite <- E. f_equal. simpl. rewrite app_nil_r.
    replace (e + 0) with e by lia. unfold words.
    rewrite !firstn_firstn, Nat.min_id. reflexivity.
  Qed.

  Ltac word m p :=
    let L := fresh "L" in let w := fresh "w" in
    assert (L : length (words m 1 p) = 1) by (apply words_length; lia);
    remember (words m 1 p) as w; destruct w as [|? [|? ?]]; [discriminate L| |discriminate L]; clear L.

  Definition always (a b y : nat) : Prop := True.

  Lemma multiply_ss_body_ok lanes : body_ok 1 f_mul 1 always (multiply_ss_body zero mul lanes).
  Proof.
    intros a b y m La Lb Ly _. simpl in *. unfold multiply_ss_body.
    rewrite !load_ss_ok by lia. cbn [bind]. unfold store_ss.
    apply write_chunks1; auto using f_mul_el.
    word m a. word m b. reflexivity.
  Qed.

  Lemma madd_ss_body_ok avx2 lanes :
    (avx2 = true -> forall x y z, fma x y z = add (mul x y) z) ->
    body_ok 1 f_madd 1 always (madd_ss_body zero add mul fma avx2 lanes).
  Proof.
    intros F a b y m La Lb Ly _. simpl in *. unfold madd_ss_body.
    rewrite !load_ss_ok by lia. cbn [bind]. unfold store_ss.
    apply write_chunks1; auto using f_madd_el.
    word m a. word m b. word m y. destruct avx2; simpl; rewrite ?F by reflexivity; cm.
  Qed.

  Lemma constant_add_ss_body_ok avx2 c :
    (avx2 = true -> forall x y z, fma x y z = add (mul x y) z) ->
    body_ok 1 (f_const [c]) 1 always (constant_add_ss_body zero add mul fma avx2 c).
  Proof.
    intros F a b y m La Lb Ly _. simpl in *. unfold constant_add_ss_body.
    rewrite !load_ss_ok by lia. cbn [bind]. unfold store_ss.
    apply write_chunks1 with (b := b); auto using f_const_el.
    word m a. word m y. destruct avx2; simpl; rewrite ?F by reflexivity; cm.
  Qed.

  Lemma ramp_ss_body_ok acc base gain :
    body_ok 1 (f_ramp acc base gain) 1 always (ramp_ss_body zero add mul acc base gain).
  Proof.
    intros a b y m La Lb Ly _. simpl in *. unfold ramp_ss_body.
    rewrite !load_ss_ok by lia. cbn [bind]. unfold store_ss.
    destruct acc; (apply write_chunks1 with (b := b); [auto using f_ramp_el|lia|lia|lia|]);
      word m a; word m b; word m y; simpl; cm.
  Qed.

  Ltac word2 m p :=
    let L := fresh "L" in let w := fresh "w" in
    assert (L : length (words m 2 p) = 2) by (apply words_length; lia);
    remember (words m 2 p) as w; destruct w as [|? [|? [|? ?]]];
    [discriminate L|discriminate L| |discriminate L]; clear L.

  Lemma cmultiply1_body_ok : body_ok 2 f_cmul 1 always (cmultiply1_body add sub mul).
  Proof.
    intros a b y m La Lb Ly _. simpl in *. unfold cmultiply1_body.
    destruct (load1_ok m a La) as (re & im & E & -> & ->). cbn [bind].
    rewrite !loadl_ok by lia. cbn [bind]. unfold storel.
    apply write_chunks1; auto using f_cmul_el. rewrite E. word2 m b.
    unfold complex_product1, f_cmul, mul_ps, map2. simpl. cm.
  Qed.

  Lemma cmadd1_body_ok : body_ok 2 f_cmadd 1 always (cmadd1_body add sub mul).
  Proof.
    intros a b y m La Lb Ly _. simpl in *. unfold cmadd1_body.
    destruct (load1_ok m a La) as (re & im & E & -> & ->). cbn [bind].
    rewrite !loadl_ok by lia. cbn [bind]. unfold storel.
    apply write_chunks1; auto using f_cmadd_el. rewrite E. word2 m b. word2 m y.
    unfold complex_product1, f_cmadd, add_ps, mul_ps, map2. simpl. cm.
  Qed.

  Lemma cconstant_add1_body_ok re im :
    body_ok 2 (f_cconst [re; im]) 1 always (cconstant_add1_body add sub mul re im).
  Proof.
    intros a b y m La Lb Ly _. simpl in *. unfold cconstant_add1_body.
    rewrite !loadl_ok by lia. cbn [bind]. unfold storel.
    apply write_chunks1 with (b := b); auto using f_cconst_el. word2 m a. word2 m y.
    unfold complex_product1, f_cconst, add_ps, mul_ps, map2. simpl. cm.
  Qed.
End Kernels.
