From Verif Require Import Base Num RampProofs LagrangeModel.
Local Open Scope Qc_scope.

(** ** Products of all other elements *)
Fixpoint drop_nth (i : nat) (l : list Qc) : list Qc :=
  match l with
  | [] => []
  | x :: r => match i with O => r | S j => x :: drop_nth j r end
  end.

Definition others (l : list Qc) : list Qc :=
  map (fun i => qprod (drop_nth i l)) (seq 0 (length l)).

Lemma others_cons x l : others (x :: l) = qprod l :: map (fun v => x * v) (others l).
Proof.
  unfold others. simpl. f_equal. rewrite <- seq_shift, !map_map. reflexivity.
Qed.

Lemma pair_products_prod l : qprod (pair_products l) = qprod l.
Proof.
  enough (H : forall n l, (length l <= n)%nat -> qprod (pair_products l) = qprod l)
    by (apply (H (length l)); lia).
  induction n as [|n IH]; intros [|x [|y r]] Hl; simpl in *; try lia; try reflexivity.
  rewrite IH by lia. ring.
Qed.

Lemma pair_products_length l : length (pair_products l) = Nat.div2 (S (length l)).
Proof.
  enough (H : forall n l, (length l <= n)%nat -> length (pair_products l) = Nat.div2 (S (length l)))
    by (apply (H (length l)); lia).
  induction n as [|n IH]; intros [|x [|y r]] Hl; simpl in *; try lia; try reflexivity.
  rewrite IH by lia. reflexivity.
Qed.

Lemma map_others_scale c l : map (fun v => c * v) (others l) =
  map (fun i => c * qprod (drop_nth i l)) (seq 0 (length l)).
Proof. unfold others. now rewrite map_map. Qed.

Lemma combine_pairs_scaled c l : forall n, (length l <= n)%nat ->
  combine_pairs l (map (fun v => c * v) (others (pair_products l))) = map (fun v => c * v) (others l).
Proof.
  intros n. revert c l. induction n as [|n IH]; intros c [|x [|y r]] Hl;
    try (simpl in Hl; lia); try reflexivity.
  change (pair_products (x :: y :: r)) with (x * y :: pair_products r).
  rewrite !others_cons. cbn [map combine_pairs].
  rewrite pair_products_prod. f_equal; [cbn [qprod]; ring|]. f_equal; [ring|].
  rewrite !map_map.
  replace (map (fun v => c * (x * y * v)) (others (pair_products r)))
    with (map (fun v => (c * (x * y)) * v) (others (pair_products r)))
    by (apply map_ext; intros; ring).
  rewrite IH by (simpl in Hl; lia). apply map_ext. intros. ring.
Qed.

Lemma multiply_and_shuffle_correct fuel : forall l,
  (1 <= length l <= fuel)%nat -> multiply_and_shuffle fuel l = others l.
Proof.
  induction fuel as [|fuel IH]; intros l H; [lia|].
  destruct l as [|x [|y [|z r]]]; [simpl in H; lia|reflexivity| |].
  - cbn. unfold others; simpl. f_equal; [ring|]. f_equal. ring.
  - cbn [multiply_and_shuffle].
    rewrite IH.
    + pose proof (combine_pairs_scaled 1 (x :: y :: z :: r) _ (le_n _)) as E.
      rewrite !(map_ext (fun v => 1 * v) (fun v => v)), !map_id in E by (intros; ring). exact E.
    + rewrite pair_products_length. simpl length in *.
      pose proof (Nat.div2_odd (S (S (S (S (length r)))))) as D.
      assert (HD : (Nat.div2 (S (S (S (S (length r))))) <= 3 + length r - 1)%nat).
      { simpl. assert (forall k, (Nat.div2 k <= k)%nat).
        { intros k. pose proof (Nat.div2_odd k). lia. }
        specialize (H0 (length r)). lia. }
      simpl in *. lia.
Qed.

(** ** Scale factors *)
Lemma fold_scale (f : nat -> Qc) idx l : forall acc,
  fold_left (fun acc run => if Nat.eqb run idx then acc else acc * f run) l acc
  = acc * qprod (map f (filter (fun run => negb (Nat.eqb run idx)) l)).
Proof.
  induction l as [|x l IH]; intros acc; simpl; [ring|].
  destruct (Nat.eqb_spec x idx); simpl; rewrite IH; [reflexivity|ring].
Qed.

Lemma filter_ne_seq n : forall k m, (k < m)%nat ->
  filter (fun run => negb (Nat.eqb run k)) (seq m n) = seq m n.
Proof.
  induction n as [|n IH]; intros k m Hm; [reflexivity|]. simpl.
  destruct (Nat.eqb_spec m k); [lia|]. simpl. f_equal. apply IH. lia.
Qed.

Lemma drop_nth_filter (f : nat -> Qc) n : forall k i, (i < n)%nat ->
  drop_nth i (map f (seq k n)) = map f (filter (fun run => negb (Nat.eqb run (k + i))) (seq k n)).
Proof.
  induction n as [|n IH]; intros k i Hi; [lia|]. simpl.
  destruct i as [|i].
  - rewrite Nat.add_0_r, Nat.eqb_refl. simpl. f_equal. symmetry.
    assert (E : filter (fun run => negb (Nat.eqb run k)) (seq (S k) n) = seq (S k) n).
    { apply filter_ne_seq. lia. }
    now rewrite E.
  - destruct (Nat.eqb_spec k (k + S i)); [lia|]. simpl. f_equal.
    rewrite IH by lia. f_equal. apply filter_ext. intros a. do 2 f_equal. lia.
Qed.

(** The basis polynomial number [i] over nodes [o]. *)
Definition basis (rev : bool) (N i : nat) (x : Qc) : Qc :=
  scale_factor rev N i * qprod (drop_nth i (map (fun v => v - x) (offsets rev N))).

Lemma coefficients_basis rev N mu :
  calculate_coefficients rev N mu = map (fun i => basis rev N i mu) (seq 0 (S N)).
Proof.
  unfold calculate_coefficients.
  assert (Hl : length (map (fun v => v - mu) (offsets rev N)) = S N)
    by (unfold offsets; now rewrite !map_length, seq_length).
  rewrite multiply_and_shuffle_correct by (rewrite Hl; lia).
  unfold others. rewrite Hl.
  generalize (seq 0 (S N)). intros l. induction l as [|i l IH]; [reflexivity|].
  simpl. f_equal. exact IH.
Qed.

Lemma coefficients_length rev N mu : length (calculate_coefficients rev N mu) = S N.
Proof. rewrite coefficients_basis. now rewrite map_length, seq_length. Qed.

Lemma offset_inj rev N i j : offset rev N i = offset rev N j -> i = j.
Proof.
  unfold offset. destruct rev; intros H; apply nq_inj.
  - assert (E : nq i = 1 / nq 2 * nq N - (1 / nq 2 * nq N - nq i)) by ring.
    rewrite H in E. rewrite E. ring.
  - assert (E : nq i = (nq i - 1 / nq 2 * nq N) + 1 / nq 2 * nq N) by ring.
    rewrite H in E. rewrite E. ring.
Qed.

Lemma basis_form rev N i x : (i <= N)%nat ->
  let js := filter (fun run => negb (Nat.eqb run i)) (seq 0 (S N)) in
  basis rev N i x
  = qprod (map (fun j => offset rev N j - x) js)
    / qprod (map (fun j => offset rev N j - offset rev N i) js).
Proof.
  intros Hi js. unfold basis, scale_factor.
  rewrite fold_scale, Qcmult_1_l. unfold offsets. rewrite map_map.
  rewrite (drop_nth_filter (fun j => offset rev N j - x) (S N) 0 i) by lia.
  simpl Nat.add. fold js. unfold Qcdiv. rewrite Qcmult_1_l. ring.
Qed.

Lemma scale_nonzero rev N i :
  qprod (map (fun j => offset rev N j - offset rev N i)
           (filter (fun run => negb (Nat.eqb run i)) (seq 0 (S N)))) <> 0.
Proof.
  apply qprod_neq_0. intros x Hx. apply in_map_iff in Hx as (j & <- & Hj).
  apply filter_In in Hj as [_ Hj]. intros E.
  assert (offset rev N j = offset rev N i).
  { rewrite <- (Qcplus_0_r (offset rev N i)), <- E. ring. }
  apply offset_inj in H. subst. rewrite Nat.eqb_refl in Hj. discriminate.
Qed.

(** Kronecker property. *)
Lemma basis_kronecker rev N i j : (i <= N)%nat -> (j <= N)%nat ->
  basis rev N i (offset rev N j) = if Nat.eqb i j then 1 else 0.
Proof.
  intros Hi Hj. rewrite basis_form by exact Hi.
  destruct (Nat.eqb_spec i j) as [->|Hne].
  - unfold Qcdiv. apply Qcmult_inv_r. apply scale_nonzero.
  - rewrite qprod_zero; [unfold Qcdiv; ring|].
    apply in_map_iff. exists j. split; [ring|]. apply filter_In.
    split; [apply in_seq; lia|]. destruct (Nat.eqb_spec j i); [congruence|reflexivity].
Qed.

(** ** Polynomials as coefficient lists *)
Fixpoint peval (p : list Qc) (x : Qc) : Qc :=
  match p with [] => 0 | c :: r => c + x * peval r x end.

Fixpoint padd (p q : list Qc) : list Qc :=
  match p, q with
  | [], _ => q
  | _, [] => p
  | a :: p', b :: q' => a + b :: padd p' q'
  end.
Lemma padd_eval p : forall q x, peval (padd p q) x = peval p x + peval q x.
Proof.
  induction p as [|a p IH]; intros [|b q] x; simpl; try ring. rewrite IH. ring.
Qed.
Lemma padd_length p : forall q, length (padd p q) = Nat.max (length p) (length q).
Proof. induction p as [|a p IH]; intros [|b q]; simpl; auto. Qed.

Definition pscale (c : Qc) (p : list Qc) : list Qc := map (fun v => c * v) p.
Lemma pscale_eval c p x : peval (pscale c p) x = c * peval p x.
Proof. induction p as [|a p IH]; simpl; [ring|]. rewrite IH. ring. Qed.

(** multiply by (a - x) *)
Definition plin (a : Qc) (p : list Qc) : list Qc := padd (pscale a p) (0 :: pscale (-(1)) p).
Lemma plin_eval a p x : peval (plin a p) x = (a - x) * peval p x.
Proof. unfold plin. rewrite padd_eval. simpl. rewrite !pscale_eval. ring. Qed.
Lemma plin_length a p : length (plin a p) = S (length p).
Proof. unfold plin, pscale. rewrite padd_length. simpl. rewrite !map_length. lia. Qed.

Lemma prod_poly (l : list Qc) :
  exists p, length p = S (length l) /\ forall x, peval p x = qprod (map (fun a => a - x) l).
Proof.
  induction l as [|a l (p & L & E)].
  - exists [1]. split; [reflexivity|]. intros x. simpl. ring.
  - exists (plin a p). split; [rewrite plin_length; simpl; lia|].
    intros x. rewrite plin_eval, E. reflexivity.
Qed.

(** Synthetic division: p(x) - p(a) = (x - a) q(x), q shorter than p. *)
Lemma factor_root p a : exists q, (length q <= pred (length p))%nat
  /\ forall x, peval p x = peval p a + (x - a) * peval q x.
Proof.
  induction p as [|c p (q & L & E)].
  - exists []. split; [simpl; lia|]. intros x. simpl. ring.
  - destruct p as [|d p'].
    + exists []. split; [simpl; lia|]. intros x. simpl. ring.
    + exists (padd (d :: p') (pscale a q)). split.
      * rewrite padd_length. unfold pscale. rewrite map_length. cbn [length pred] in *. lia.
      * intros x. rewrite padd_eval, pscale_eval. cbn [peval] in *.
        specialize (E x). simpl in E.
        set (u := d + x * peval p' x) in *. set (w := d + a * peval p' a) in *.
        assert (Eq : (x - a) * peval q x = u - w) by (rewrite E; ring).
        transitivity (c + a * w + (x - a) * u + a * (u - w)); [ring|].
        rewrite <- Eq. ring.
Qed.

Lemma poly_vanishes : forall (roots : list Qc) p,
  NoDup roots -> (length p <= length roots)%nat ->
  (forall r, In r roots -> peval p r = 0) -> forall x, peval p x = 0.
Proof.
  induction roots as [|a roots IH]; intros p Hnd Hl Hr x.
  - destruct p; [reflexivity|simpl in Hl; lia].
  - destruct (factor_root p a) as (q & Lq & E).
    inversion Hnd; subst.
    assert (Ha : peval p a = 0) by (apply Hr; now left).
    assert (Hq : forall y, peval q y = 0).
    { apply IH; [assumption|simpl in Hl; lia|]. intros r Hin.
      assert (Er : peval p r = 0) by (apply Hr; now right).
      rewrite E, Ha in Er.
      assert (E2 : (r - a) * peval q r = 0) by (rewrite <- Er; ring).
      apply Qcmult_integral in E2 as [E2|E2]; [|exact E2].
      exfalso. assert (r = a) by (rewrite <- (Qcplus_0_r a), <- E2; ring). congruence. }
    rewrite E, Ha, Hq. ring.
Qed.

Lemma offsets_NoDup rev N : NoDup (offsets rev N).
Proof.
  unfold offsets. generalize 0%nat. generalize (S N) as n. intros n k. revert k.
  induction n as [|n IH]; intros k; simpl; constructor; auto.
  intros H. apply in_map_iff in H as (j & E & Hj). apply offset_inj in E. apply in_seq in Hj. lia.
Qed.

Lemma basis_poly rev N i : (i <= N)%nat ->
  exists p, length p = S N /\ forall x, peval p x = basis rev N i x.
Proof.
  intros Hi.
  set (js := filter (fun run => negb (Nat.eqb run i)) (seq 0 (S N))).
  destruct (prod_poly (map (offset rev N) js)) as (p & L & E).
  exists (pscale (/ qprod (map (fun j => offset rev N j - offset rev N i) js)) p). split.
  - unfold pscale. rewrite map_length, L, map_length. f_equal.
    unfold js. clear L E js p.
    assert (H : length (drop_nth i (map nq (seq 0 (S N)))) = N).
    { clear -Hi. assert (forall l i, (i < length l)%nat -> length (drop_nth i l) = pred (length l)).
      { induction l as [|x l IH]; intros [|j] Hj; simpl in *; try lia.
        rewrite IH by lia. lia. }
      rewrite H by (rewrite map_length, seq_length; lia).
      now rewrite map_length, seq_length. }
    rewrite (drop_nth_filter nq (S N) 0 i) in H by lia. now rewrite map_length in H.
  - intros x. rewrite pscale_eval, E, basis_form by exact Hi. rewrite map_map.
    fold js. unfold Qcdiv. ring.
Qed.

Fixpoint dot (a b : list Qc) : Qc :=
  match a, b with x :: a', y :: b' => x * y + dot a' b' | _, _ => 0 end.

Lemma dot_map (f g : nat -> Qc) l : dot (map f l) (map g l) = qsum (map (fun i => f i * g i) l).
Proof. induction l as [|x l IH]; simpl; [reflexivity|]. now rewrite IH. Qed.

Lemma sum_poly (f : nat -> Qc -> Qc) n l :
  (forall i, In i l -> exists p, (length p <= n)%nat /\ forall x, peval p x = f i x) ->
  exists p, (length p <= n)%nat /\ forall x, peval p x = qsum (map (fun i => f i x) l).
Proof.
  induction l as [|i l IH]; intros H.
  - exists []. split; [simpl; lia|reflexivity].
  - destruct IH as (p & L & E); [intros j Hj; apply H; now right|].
    destruct (H i (or_introl eq_refl)) as (q & Lq & Eq).
    exists (padd q p). split; [rewrite padd_length; lia|].
    intros x. rewrite padd_eval, E, Eq. reflexivity.
Qed.

Lemma sum_delta_none (g : nat -> Qc) j n : forall m, (j < m)%nat ->
  qsum (map (fun i => (if Nat.eqb i j then 1 else 0) * g i) (seq m n)) = 0.
Proof.
  induction n as [|n IH]; intros m Hm; [reflexivity|]. simpl.
  destruct (Nat.eqb_spec m j); [lia|]. rewrite IH by lia. ring.
Qed.

Lemma sum_delta (g : nat -> Qc) j n : forall k, (k <= j < k + n)%nat ->
  qsum (map (fun i => (if Nat.eqb i j then 1 else 0) * g i) (seq k n)) = g j.
Proof.
  induction n as [|n IH]; intros k H; [lia|]. simpl.
  destruct (Nat.eqb_spec k j) as [->|Hne].
  - assert (E : qsum (map (fun i => (if Nat.eqb i j then 1 else 0) * g i) (seq (S j) n)) = 0).
    { apply sum_delta_none. lia. }
    rewrite E. ring.
  - rewrite IH by lia. ring.
Qed.

(** Exactness for polynomials of degree <= N. *)
Lemma lagrange_exact rev N mu p :
  (length p <= S N)%nat ->
  dot (calculate_coefficients rev N mu) (map (peval p) (offsets rev N)) = peval p mu.
Proof.
  intros Hl. rewrite coefficients_basis. unfold offsets. rewrite map_map, dot_map.
  destruct (sum_poly (fun i x => basis rev N i x * peval p (offset rev N i)) (S N) (seq 0 (S N)))
    as (q & Lq & Eq).
  { intros i Hi. apply in_seq in Hi. destruct (basis_poly rev N i) as (b & Lb & Eb); [lia|].
    exists (pscale (peval p (offset rev N i)) b). split.
    - unfold pscale. rewrite map_length. lia.
    - intros x. rewrite pscale_eval, Eb. ring. }
  rewrite <- Eq.
  set (d := padd q (pscale (-(1)) p)).
  assert (Hd : forall x, peval d x = 0).
  { apply (poly_vanishes (offsets rev N)).
    - apply offsets_NoDup.
    - unfold d. rewrite padd_length. unfold pscale, offsets. rewrite !map_length, seq_length. lia.
    - intros r Hr. unfold offsets in Hr. apply in_map_iff in Hr as (j & <- & Hj).
      apply in_seq in Hj. unfold d. rewrite padd_eval, pscale_eval, Eq.
      rewrite (map_ext_in _ (fun i => (if Nat.eqb i j then 1 else 0) * peval p (offset rev N i))).
      + rewrite (sum_delta (fun i => peval p (offset rev N i))) by lia. ring.
      + intros i Hi. apply in_seq in Hi. rewrite basis_kronecker by lia. reflexivity. }
  specialize (Hd mu). unfold d in Hd. rewrite padd_eval, pscale_eval in Hd.
  rewrite <- (Qcplus_0_r (peval p mu)), <- Hd. ring.
Qed.

Lemma lagrange_sum_one rev N mu : qsum (calculate_coefficients rev N mu) = 1.
Proof.
  pose proof (lagrange_exact rev N mu [1] ltac:(simpl; lia)) as H.
  cbn [peval] in H. rewrite Qcmult_0_r, Qcplus_0_r in H. rewrite <- H.
  rewrite coefficients_basis. unfold offsets. rewrite map_map, dot_map.
  f_equal. apply map_ext. intros i. ring.
Qed.

Lemma lagrange_at_tap rev N j : (j <= N)%nat ->
  calculate_coefficients rev N (offset rev N j)
  = map (fun i => if Nat.eqb i j then 1 else 0) (seq 0 (S N)).
Proof.
  intros Hj. rewrite coefficients_basis. apply map_ext_in. intros i Hi. apply in_seq in Hi.
  apply basis_kronecker; lia.
Qed.
