(** Proofs for the FIR filter (property C77). *)
From Coq Require Import ZArith.
From Verif Require Import Base Memory FirModel FirSpec.

Lemma mod_is (a N k r : Z) : (a = N * k + r -> 0 <= r < N -> a mod N = r)%Z.
Proof. intros E H. symmetry. eapply Z.mod_unique_pos; eauto. Qed.

Lemma map_res_const {A B} (g : A -> B) (f : A -> res B) l : (forall x, In x l -> f x = Ok (g x)) -> map_res f l = Ok (map g l).
Proof.
  induction l as [|x l IH]; intros H; [reflexivity|]. cbn [map_res map]. rewrite (H x (or_introl eq_refl)). cbn [bind].
  rewrite IH by (intros y Hy; apply H; right; exact Hy). reflexivity.
Qed.
Lemma fold_left_in {A B} (f g : A -> B -> A) l : (forall a x, In x l -> f a x = g a x) -> forall a, fold_left f l a = fold_left g l a.
Proof.
  induction l as [|x l IH]; intros H a; [reflexivity|]. cbn [fold_left]. rewrite H by (left; reflexivity).
  apply IH. intros a' y Hy. apply H. right. exact Hy.
Qed.
Lemma nth_error_nth_lt {A} (l : list A) k d : k < length l -> nth_error l k = Some (nth k l d).
Proof. intros H. apply nth_error_nth'. exact H. Qed.

Lemma map_seq_nth {A} (f : nat -> A) n k d : k < n -> nth k (map f (seq 0 n)) d = f k.
Proof.
  intros H. rewrite (nth_indep _ d (f 0)) by (rewrite map_length, seq_length; exact H). rewrite map_nth, seq_nth by exact H. reflexivity.
Qed.

Section Fir.
  Context {R : Type} (add mul : R -> R -> R) (zero one minus_one : R) (block blocks filters : nat).
  Hypothesis block_pos : 0 < block.
  Local Notation N := (block * (blocks + 1)).
  Local Notation ZN := (Z.of_nat (block * (blocks + 1))).
  Local Notation rep := (represented block blocks).
  Local Notation sig := (signal zero).

  (** *** The circular buffer *)
  Lemma set_at_ok : forall (l : list R) k x, k < length l ->
    exists l', set_at l k x = Ok l' /\ length l' = length l /\ forall q, nth q l' zero = if q =? k then x else nth q l zero.
  Proof.
    induction l as [|y l IH]; intros [|k] x H; cbn [length] in H; try lia.
    - exists (x :: l). split; [reflexivity|]. split; [reflexivity|]. intros [|q]; reflexivity.
    - destruct (IH k x ltac:(lia)) as (l' & E & L & Q). exists (y :: l'). cbn [set_at]. rewrite E. split; [reflexivity|].
      split; [cbn; lia|]. intros [|q]; [reflexivity|]. cbn [nth Nat.eqb]. apply Q.
  Qed.
  Lemma set_input_ok : forall (x l : list R) pos, pos + length x <= length l ->
    exists l', set_input l pos x = Ok l' /\ length l' = length l
      /\ forall q, nth q l' zero = if (pos <=? q) && (q <? pos + length x) then nth (q - pos) x zero else nth q l zero.
  Proof.
    induction x as [|x0 x IH]; intros l pos H; cbn [length] in *.
    - exists l. split; [reflexivity|]. split; [reflexivity|]. intros q.
      destruct (Nat.leb_spec pos q), (Nat.ltb_spec q (pos + 0)); try reflexivity. lia.
    - destruct (set_at_ok l pos x0 ltac:(lia)) as (l1 & E1 & L1 & Q1). cbn [set_input]. rewrite E1. cbn [bind].
      destruct (IH l1 (S pos) ltac:(lia)) as (l2 & E2 & L2 & Q2). exists l2. split; [exact E2|]. split; [lia|].
      intros q. rewrite Q2, Q1.
      destruct (Nat.leb_spec (S pos) q), (Nat.ltb_spec q (S pos + length x)), (Nat.leb_spec pos q),
        (Nat.ltb_spec q (pos + S (length x))), (Nat.eqb_spec q pos); cbn [andb]; try reflexivity; try lia.
      + replace (q - pos) with (S (q - S pos)) by lia. reflexivity.
      + subst. rewrite Nat.sub_diag. reflexivity.
  Qed.
  Lemma signal_app h x t : (t < Z.of_nat (length h))%Z -> sig (h ++ x) t = sig h t.
  Proof.
    intros H. unfold signal. destruct (Z.ltb_spec t 0); [reflexivity|]. apply app_nth1. lia.
  Qed.
  Lemma signal_new h x i : i < length x -> sig (h ++ x) (Z.of_nat (length h + i)) = nth i x zero.
  Proof.
    intros H. unfold signal. destruct (Z.ltb_spec (Z.of_nat (length h + i)) 0); [lia|].
    rewrite Nat2Z.id, app_nth2 by lia. f_equal. lia.
  Qed.

  Definition holds (h buf : list R) : Prop :=
    length buf = N /\ forall q, q < N -> nth q buf zero = sig h (rep (Z.of_nat (length h) - 1) (Z.of_nat q)).

  Lemma position (h : list R) : Nat.divide block (length h) -> length h mod N + block <= N.
  Proof.
    intros [a Ha]. assert (X : length h mod N = block * (a mod (blocks + 1))).
    { rewrite Ha, (Nat.mul_comm a). apply Nat.mul_mod_distr_l; lia. }
    rewrite X. pose proof (Nat.mod_upper_bound a (blocks + 1) ltac:(lia)). nia.
  Qed.
  Lemma holds_new : holds [] (repeat zero N).
  Proof.
    split; [apply repeat_length|]. intros q Hq. rewrite nth_repeat. unfold signal, represented.
    cbn [length]. destruct (Z.ltb_spec (Z.of_nat 0 - 1 - (Z.of_nat 0 - 1 - Z.of_nat q) mod ZN) 0); [reflexivity|].
    destruct (Z.to_nat _); reflexivity.
  Qed.
  Lemma holds_input h buf x : holds h buf -> Nat.divide block (length h) -> length x = block ->
    exists buf', set_input buf (length h mod N) x = Ok buf' /\ holds (h ++ x) buf'.
  Proof.
    intros [L Q] D Hx. pose proof (position h D) as Hp.
    destruct (set_input_ok x buf (length h mod N)) as (buf' & E1 & L1 & Q1); [lia|].
    exists buf'. split; [exact E1|]. split; [lia|]. intros q Hq. rewrite Q1, Hx, app_length, Hx.
    pose proof (Nat.div_mod (length h) N ltac:(lia)) as Hd.
    set (pos := length h mod N) in *. set (d := length h / N) in *. clearbody pos d.
    assert (HdZ : Z.of_nat (length h) = (ZN * Z.of_nat d + Z.of_nat pos)%Z) by lia.
    unfold represented.
    destruct (Nat.leb_spec pos q), (Nat.ltb_spec q (pos + block)); cbn [andb].
    - rewrite (mod_is _ ZN (Z.of_nat d) (Z.of_nat (pos + block - 1 - q))) by lia.
      rewrite <- (signal_new h x (q - pos)) by lia. f_equal. lia.
    - rewrite Q by lia. unfold represented.
      rewrite (mod_is (Z.of_nat (length h) - 1 - Z.of_nat q) ZN (Z.of_nat d - 1) (ZN + Z.of_nat pos - 1 - Z.of_nat q)) by lia.
      rewrite (mod_is _ ZN (Z.of_nat d - 1) (ZN + Z.of_nat (pos + block) - 1 - Z.of_nat q)) by lia.
      rewrite signal_app by lia. f_equal. lia.
    - rewrite Q by lia. unfold represented.
      rewrite (mod_is (Z.of_nat (length h) - 1 - Z.of_nat q) ZN (Z.of_nat d) (Z.of_nat pos - 1 - Z.of_nat q)) by lia.
      rewrite (mod_is _ ZN (Z.of_nat d) (Z.of_nat (pos + block) - 1 - Z.of_nat q)) by lia.
      rewrite signal_app by lia. f_equal. lia.
    - lia.
  Qed.
  Lemma position_next (h x : list R) : Nat.divide block (length h) -> length x = block ->
    (if N <=? length h mod N + block then 0 else length h mod N + block) = length (h ++ x) mod N.
  Proof.
    intros D Hx. pose proof (position h D) as Hp. rewrite app_length, Hx.
    pose proof (Nat.div_mod (length h) N ltac:(lia)) as Hd.
    destruct (Nat.leb_spec N (length h mod N + block)) as [G|G].
    - apply (Nat.mod_unique _ _ (S (length h / N))); nia.
    - apply (Nat.mod_unique _ _ (length h / N)); nia.
  Qed.

  (** *** The sum over the coefficients *)
  Record related (s : fir (R := R)) (p : spec (R := R)) : Prop := {
    r_filters : m_nFIRs s = p_filters p;
    r_length : m_nFIRsamples s = p_length p;
    r_ratio : m_nUpsample s = p_ratio p;
    r_ratio_ok : (0 <= p_ratio p <= ZN)%Z;
    r_rows : length (m_B s) = p_filters p;
    r_cols : forall k, k < p_filters p -> length (nth k (m_B s) []) = p_length p;
    r_coeff : forall k j, k < p_filters p -> j < p_length p -> nth j (nth k (m_B s) []) zero = p_coeff p k j;
    r_buffer : holds (p_history p) (m_inBuffer s);
    r_position : m_iBuf s = length (p_history p) mod N;
    r_blocks : Nat.divide block (length (p_history p))
  }.

  Lemma taps_ok s p h buf t (R0 : related s p) : holds h buf -> forall n j acc,
    j + n = p_length p -> length acc = p_filters p ->
    taps add mul block blocks s buf n j ((t - Z.of_nat j * p_ratio p) mod ZN)%Z acc
    = Ok (map (fun k => fold_left (fun a j => add a (mul (p_coeff p k j)
                (sig h (rep (Z.of_nat (length h) - 1) (t - Z.of_nat j * p_ratio p))))) (seq j n) (nth k acc zero))
              (seq 0 (p_filters p))).
  Proof.
    intros [L Q]. induction n as [|n IH]; intros j acc Hj Ha.
    - cbn [taps seq fold_left]. f_equal. apply (nth_ext _ _ zero zero); [rewrite map_length, seq_length; exact Ha|].
      intros k Hk. symmetry. apply (map_seq_nth (fun k => nth k acc zero)). lia.
    - cbn [taps]. set (a := (t - Z.of_nat j * p_ratio p)%Z).
      assert (HN : (0 < ZN)%Z) by lia.
      pose proof (Z.mod_pos_bound a ZN HN) as Hb.
      rewrite (r_filters s p R0).
      rewrite (map_res_const (fun k => add (nth k acc zero) (mul (p_coeff p k j) (sig h (rep (Z.of_nat (length h) - 1) a))))).
      2:{ intros k Hk. apply in_seq in Hk. unfold elem, elem_z, elem.
          rewrite (nth_error_nth_lt acc k zero) by lia. cbn [bind].
          rewrite (nth_error_nth_lt (m_B s) k []) by (rewrite (r_rows s p R0); lia). cbn [bind].
          rewrite (nth_error_nth_lt _ j zero) by (rewrite (r_cols s p R0); lia). cbn [bind].
          destruct (Z.ltb_spec (a mod ZN) 0); [lia|].
          rewrite (nth_error_nth_lt buf _ zero) by lia. cbn [bind].
          rewrite (r_coeff s p R0) by lia. rewrite Q by lia. rewrite Z2Nat.id by lia. unfold represented.
          rewrite Zminus_mod_idemp_r. reflexivity. }
      cbn [bind]. rewrite (r_ratio s p R0). pose proof (r_ratio_ok s p R0) as Hu.
      assert (Nx : (let i1 := a mod ZN - p_ratio p in if i1 <? 0 then i1 + ZN else i1)%Z
                   = ((t - Z.of_nat (S j) * p_ratio p) mod ZN)%Z).
      { cbn zeta. replace (t - Z.of_nat (S j) * p_ratio p)%Z with (a - p_ratio p)%Z by (unfold a; lia).
        pose proof (Z.div_mod a ZN ltac:(lia)) as Hd.
        destruct (Z.ltb_spec (a mod ZN - p_ratio p) 0); symmetry.
        - apply (mod_is _ ZN (a / ZN - 1)); lia.
        - apply (mod_is _ ZN (a / ZN)); lia. }
      cbn zeta in Nx. unfold nBufferSamples. rewrite Nx.
      rewrite IH by (try rewrite map_length, seq_length; lia). f_equal. apply map_ext_in. intros k Hk. apply in_seq in Hk.
      cbn [seq fold_left]. f_equal.
      apply (map_seq_nth (fun k => add (nth k acc zero) (mul (p_coeff p k j) (sig h (rep (Z.of_nat (length h) - 1) a))))). lia.
  Qed.

  Lemma process_ok s p x : related s p -> length x = block ->
    let '(s', r) := process add mul zero block blocks s x in
    r = Ok (map (fun i => map (spec_sample add mul zero block blocks p (p_history p ++ x) (Z.of_nat (length (p_history p) + i)))
                  (seq 0 (p_filters p))) (seq 0 block))
    /\ related s' (Spec (p_filters p) (p_length p) (p_coeff p) (p_ratio p) (p_history p ++ x)).
  Proof.
    intros R0 Hx. unfold process. rewrite Hx, Nat.eqb_refl. cbn [negb].
    destruct (holds_input _ _ _ (r_buffer s p R0) (r_blocks s p R0) Hx) as (buf & E & H).
    rewrite (r_position s p R0), E. cbn [bind].
    rewrite (map_res_const (fun i => map (spec_sample add mul zero block blocks p (p_history p ++ x) (Z.of_nat (length (p_history p) + i)))
                  (seq 0 (p_filters p)))).
    2:{ intros i Hi. apply in_seq in Hi.
        pose proof (position _ (r_blocks s p R0)) as Hp.
        pose proof (Nat.div_mod (length (p_history p)) N ltac:(lia)) as Hd.
        assert (X : Z.of_nat (length (p_history p) mod N + i)
                    = ((Z.of_nat (length (p_history p) + i) - Z.of_nat 0 * p_ratio p) mod ZN)%Z).
        { symmetry. apply (mod_is _ ZN (Z.of_nat (length (p_history p) / N))); lia. }
        rewrite X, (r_length s p R0), (r_filters s p R0).
        rewrite (taps_ok s p _ buf _ R0 H) by (try rewrite repeat_length; lia).
        f_equal. apply map_ext_in. intros k _. rewrite nth_repeat. reflexivity. }
    cbn [bind]. split; [reflexivity|].
    destruct R0 as [R1 R2 R3 R4 R5 R6 R7 R8 R9 R10].
    constructor; cbn [p_filters p_length p_ratio p_coeff p_history m_nFIRs m_nFIRsamples m_nUpsample m_B m_inBuffer m_iBuf]; try assumption.
    - unfold nBufferSamples. apply position_next; assumption.
    - rewrite app_length, Hx. apply Nat.divide_add_r; [exact R10|apply Nat.divide_refl].
  Qed.

  (** *** Tristate filters *)
  Lemma tristate_row_ok draw : forall n j,
    fst (fst (tristate_row zero one minus_one draw j n)) = map (fun i => level zero one minus_one (draw i)) (seq j n)
    /\ snd (fst (tristate_row zero one minus_one draw j n)) = filter (fun i => match draw i with Some true => true | _ => false end) (seq j n)
    /\ snd (tristate_row zero one minus_one draw j n) = filter (fun i => match draw i with Some false => true | _ => false end) (seq j n).
  Proof.
    induction n as [|n IH]; intros j; [repeat split|]. cbn [tristate_row seq map filter].
    specialize (IH (S j)). destruct (tristate_row zero one minus_one draw (S j) n) as [[b q] m]. cbn [fst snd] in IH.
    destruct IH as (-> & -> & ->). unfold level at 2 4 6. destruct (draw j) as [[|]|]; repeat split.
  Qed.
  Lemma filter_le {A} (f : A -> bool) l : length (filter f l) <= length l.
  Proof. induction l as [|x l IH]; cbn; [lia|]. destruct (f x); cbn; lia. Qed.
  Lemma tristate_ok s draw : m_nFIRs s <= filters -> m_nFIRsamples s <= block * blocks ->
    tristate zero one minus_one block blocks filters s draw
    = (Fir (m_nFIRs s) (m_nFIRsamples s)
           (map (fun i => map (fun j => level zero one minus_one (draw i j)) (seq 0 (m_nFIRsamples s))) (seq 0 (m_nFIRs s)))
           (m_nUpsample s)
           (map (fun i => filter (fun j => match draw i j with Some true => true | _ => false end) (seq 0 (m_nFIRsamples s))) (seq 0 (m_nFIRs s)))
           (map (fun i => filter (fun j => match draw i j with Some false => true | _ => false end) (seq 0 (m_nFIRsamples s))) (seq 0 (m_nFIRs s)))
           (m_inBuffer s) (m_iBuf s), Ok tt).
  Proof.
    intros H1 H2. unfold tristate. destruct (Nat.ltb_spec filters (m_nFIRs s)); [lia|]. cbn [orb].
    match goal with |- (if ?b then _ else _) = _ => destruct b eqn:X end.
    2:{ rewrite !map_map. do 2 f_equal; apply map_ext; intros i; apply (tristate_row_ok (draw i)). }
    - exfalso. apply existsb_exists in X as (r & Hr & X). apply in_map_iff in Hr as (i & <- & _).
      destruct (tristate_row_ok (draw i) (m_nFIRsamples s) 0) as (_ & E1 & E2). rewrite E1, E2 in X.
      apply orb_true_iff in X as [X|X]; apply Nat.ltb_lt in X; unfold maxnFIRsamples in X;
        (eapply Nat.lt_irrefl, Nat.lt_le_trans; [exact X|]); etransitivity; try apply filter_le; rewrite seq_length; exact H2.
  Qed.

  (** *** All calls *)
  Lemma related_new : related (fir_new zero block blocks) (spec_new zero).
  Proof.
    constructor; cbn; try reflexivity; try lia.
    - apply holds_new.
    - symmetry. apply Nat.mod_0_l. lia.
    - apply Nat.divide_0_r.
  Qed.
  Lemma zeros_rows r c : length (zeros zero r c) = r.
  Proof. apply repeat_length. Qed.
  Lemma zeros_row r c k : k < r -> nth k (zeros zero r c) [] = repeat zero c.
  Proof.
    intros H. unfold zeros. rewrite (nth_indep _ [] (repeat zero c)) by (rewrite repeat_length; exact H). apply nth_repeat.
  Qed.
  Lemma step_ok s p o : related s p -> op_ok block blocks filters p o ->
    let '(s', r) := step add mul zero one minus_one block blocks filters s o in
    let '(p', r') := spec_step add mul zero one minus_one block blocks p o in
    r = r' /\ related s' p'.
  Proof.
    intros R0 Ho. destruct o as [n|n|u|cols rows|draw|x]; cbn [step spec_step op_ok] in *.
    - destruct R0 as [R1 R2 R3 R4 R5 R6 R7 R8 R9 R10]. split; [reflexivity|].
      constructor; cbn; try assumption; try reflexivity.
      + apply zeros_rows.
      + intros k Hk. rewrite zeros_row by exact Hk. rewrite repeat_length. exact R2.
      + intros k j Hk Hj. rewrite zeros_row by exact Hk. apply nth_repeat.
    - destruct R0 as [R1 R2 R3 R4 R5 R6 R7 R8 R9 R10]. split; [reflexivity|].
      constructor; cbn; try assumption; try reflexivity.
      + rewrite zeros_rows. exact R1.
      + intros k Hk. rewrite zeros_row by lia. apply repeat_length.
      + intros k j Hk Hj. rewrite zeros_row by lia. apply nth_repeat.
    - destruct Ho as [Hu Hi]. destruct R0 as [R1 R2 R3 R4 R5 R6 R7 R8 R9 R10]. unfold setUpsampleRatio. rewrite R2.
      destruct (Z.ltb_spec (u * Z.of_nat (p_length p)) (- 2 ^ 31)); [nia|].
      destruct (Z.leb_spec (2 ^ 31) (u * Z.of_nat (p_length p))); [lia|]. cbn [orb]. unfold maxnFIRsamples.
      destruct (Z.ltb_spec (Z.of_nat (block * blocks)) (u * Z.of_nat (p_length p))),
        (Z.leb_spec (u * Z.of_nat (p_length p)) (Z.of_nat (block * blocks))); try lia.
      + split; [reflexivity|]. constructor; assumption.
      + split; [reflexivity|]. constructor; cbn; (assumption || reflexivity).
    - unfold loadFIRs. rewrite (r_filters s p R0), (r_length s p R0).
      destruct (Nat.eqb_spec (length rows) (p_filters p)) as [E1|E1], (Nat.eqb_spec cols (p_length p)) as [E2|E2]; cbn [negb orb andb];
        try (split; [reflexivity|exact R0]).
      destruct R0 as [R1 R2 R3 R4 R5 R6 R7 R8 R9 R10]. split; [reflexivity|].
      constructor; cbn; try assumption; try reflexivity.
      intros k Hk. rewrite Forall_forall in Ho. rewrite <- E2. apply Ho. apply nth_In. lia.
    - destruct Ho as [H1 H2]. rewrite tristate_ok; [|rewrite (r_filters s p R0); exact H1|rewrite (r_length s p R0); exact H2].
      destruct R0 as [R1 R2 R3 R4 R5 R6 R7 R8 R9 R10]. split; [reflexivity|].
      constructor; cbn; try assumption; try reflexivity.
      + rewrite map_length, seq_length. exact R1.
      + intros k Hk. rewrite map_seq_nth by lia. rewrite map_length, seq_length. exact R2.
      + intros k j Hk Hj. rewrite !map_seq_nth by lia. reflexivity.
    - pose proof (process_ok s p x R0 Ho) as X. destruct (process add mul zero block blocks s x) as [s' r].
      destruct X as [-> X]. split; [reflexivity|exact X].
  Qed.
  Lemma perform_ok : forall ops s p, related s p -> admissible add mul zero one minus_one block blocks filters p ops ->
    snd (perform add mul zero one minus_one block blocks filters s ops) = snd (spec_perform add mul zero one minus_one block blocks p ops)
    /\ related (fst (perform add mul zero one minus_one block blocks filters s ops))
               (fst (spec_perform add mul zero one minus_one block blocks p ops)).
  Proof.
    induction ops as [|o ops IH]; intros s p R0 Ha; [split; [reflexivity|exact R0]|]. destruct Ha as [Ho Ha].
    cbn [perform spec_perform]. pose proof (step_ok s p o R0 Ho) as X.
    destruct (step add mul zero one minus_one block blocks filters s o) as [s1 r].
    destruct (spec_step add mul zero one minus_one block blocks p o) as [p1 r']. destruct X as [-> X]. cbn [fst] in Ha.
    specialize (IH s1 p1 X Ha).
    destruct (perform add mul zero one minus_one block blocks filters s1 ops) as [s2 rs].
    destruct (spec_perform add mul zero one minus_one block blocks p1 ops) as [p2 rs']. cbn [fst snd] in *.
    destruct IH as [-> IH]. split; [reflexivity|exact IH].
  Qed.
End Fir.
