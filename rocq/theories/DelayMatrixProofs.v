(** Specification and proofs for DelayMatrix. *)
From Verif Require Import Base Num Memory CircularBufferModel CircularBufferProofs RampModel RampProofs
  DelayLineModel DelayLineProofs GainModel GainProofs DelayVectorModel DelayVectorProofs.
Local Open Scope Qc_scope.

Definition mgain_track (s : matrix * nat) (op : dm_op) : matrix * nat :=
  match op with DmGain g => (g, 0%nat) | DmDelay _ => s | DmProcess _ => (fst s, S (snd s)) end.
Definition mdelay_track (s : matrix * nat) (op : dm_op) : matrix * nat :=
  match op with DmGain _ => s | DmDelay d => (d, 0%nat) | DmProcess _ => (fst s, S (snd s)) end.
Fixpoint minput_history (ops : list dm_op) (ch : nat) : list Qc :=
  match ops with
  | [] => []
  | DmProcess x :: r => nth ch x [] ++ minput_history r ch
  | _ :: r => minput_history r ch
  end.
Definition dm_op_ok (inputs block : nat) (op : dm_op) : Prop :=
  match op with
  | DmProcess x => length x = inputs /\ Forall (fun l => length l = block) x
  | _ => True
  end.

Definition mboundary (blocks : nat) (p : mparam) (o i : nat) : Qc :=
  blend (counter_ratio blocks (mp_counter p)) (entry (mp_cur p) o i) (entry (mp_next p) o i).
Definition morigin (p : mparam) (o i : nat) : Qc := entry (mp_cur p) o i.
Definition mtarget (p : mparam) (o i : nat) : Qc := entry (mp_next p) o i.

Definition mparam_ok (blocks outputs inputs : nat) (p : mparam) : Prop :=
  has_shape (mp_cur p) outputs inputs = true /\ has_shape (mp_next p) outputs inputs = true
  /\ (mp_counter p <= blocks)%nat.

Lemma mentry_ok m outputs inputs o i : has_shape m outputs inputs = true ->
  (o < outputs)%nat -> (i < inputs)%nat -> mentry m o i = Some (entry m o i).
Proof.
  intros H Ho Hi. destruct (shape_spec _ _ _ H) as [L R]. unfold mentry, entry.
  rewrite (nth_error_nth' m []) by lia. apply nth_error_nth'. rewrite R by lia. exact Hi.
Qed.

Lemma set_mparam_ok ratio blocks outputs inputs p new : is_ratio ratio -> (1 <= blocks)%nat ->
  mparam_ok blocks outputs inputs p -> has_shape new outputs inputs = true ->
  exists p', set_mparam ratio blocks outputs inputs p new = Ok p' /\ mparam_ok blocks outputs inputs p'
    /\ mp_next p' = new /\ mp_counter p' = 0%nat
    /\ forall o i, (o < outputs)%nat -> (i < inputs)%nat ->
        mboundary blocks p' o i
        = if Nat.ltb (mp_counter p) blocks
          then morigin p o i + mtarget p o i - mboundary blocks p o i
          else mboundary blocks p o i.
Proof.
  intros HR Hb (S1 & S2 & Hc) Hn. unfold set_mparam. rewrite Hn. cbn [negb].
  destruct (shape_spec _ _ _ S1) as [L1 R1]. destruct (shape_spec _ _ _ S2) as [L2 R2].
  eexists. split; [reflexivity|]. unfold mparam_ok. cbn [mp_cur mp_next mp_counter].
  split; [|split; [reflexivity|split; [reflexivity|]]].
  - split; [|split; [exact Hn|lia]].
    destruct (Nat.ltb_spec (mp_counter p) blocks); [|exact S2].
    apply shape_intro.
    + rewrite map_length, combine_length. lia.
    + intros o Ho. rewrite nth_map_combine with (da := []) (db := []) by lia. cbn [fst snd].
      rewrite combination_length; [apply R2; exact Ho|]. rewrite R1, R2 by exact Ho. reflexivity.
  - intros o i Ho Hi. unfold mboundary. cbn [mp_cur mp_next mp_counter].
    rewrite counter_ratio_0, blend_0 by exact Hb.
    destruct (Nat.ltb_spec (mp_counter p) blocks).
    + unfold entry at 1. rewrite nth_map_combine with (da := []) (db := []) by lia. cbn [fst snd].
      rewrite combination_nth by (rewrite ?R1, ?R2 by exact Ho; lia).
      rewrite HR by lia. unfold blend, morigin, mtarget, entry. ring.
    + assert (mp_counter p = blocks) as -> by lia. rewrite counter_ratio_full, blend_1 by exact Hb.
      reflexivity.
Qed.

Lemma set_mparam_inv ratio blocks outputs inputs p new p' :
  set_mparam ratio blocks outputs inputs p new = Ok p' -> has_shape new outputs inputs = true.
Proof. unfold set_mparam. destruct (has_shape new outputs inputs); [auto|discriminate]. Qed.

Lemma mparam_start_ok blocks outputs inputs p o i : mparam_ok blocks outputs inputs p ->
  (o < outputs)%nat -> (i < inputs)%nat ->
  mparam_at blocks p (mp_counter p) o i = Ok (mboundary blocks p o i).
Proof.
  intros (S1 & S2 & _) Ho Hi. unfold mparam_at.
  rewrite (mentry_ok _ outputs inputs o i S1 Ho Hi), (mentry_ok _ outputs inputs o i S2 Ho Hi).
  reflexivity.
Qed.
Lemma mparam_end_ok blocks outputs inputs p o i : mparam_ok blocks outputs inputs p ->
  (o < outputs)%nat -> (i < inputs)%nat ->
  mparam_at blocks p (Nat.min (mp_counter p + 1) blocks) o i = Ok (mboundary blocks (madvance blocks p) o i).
Proof.
  intros (S1 & S2 & _) Ho Hi. unfold mparam_at.
  rewrite (mentry_ok _ outputs inputs o i S1 Ho Hi), (mentry_ok _ outputs inputs o i S2 Ho Hi).
  unfold mboundary, madvance. cbn [mp_cur mp_next mp_counter]. rewrite Nat.min_comm. reflexivity.
Qed.
Lemma madvance_ok blocks outputs inputs p :
  mparam_ok blocks outputs inputs p -> mparam_ok blocks outputs inputs (madvance blocks p).
Proof. intros (S1 & S2 & H). unfold mparam_ok, madvance. cbn. split; [exact S1|split; [exact S2|lia]]. Qed.

Lemma mirrored_mcontinuous blocks p o i : (1 <= blocks)%nat ->
  (morigin p o i + mtarget p o i - mboundary blocks p o i = mboundary blocks p o i
   <-> morigin p o i = mtarget p o i \/ (2 * mp_counter p = blocks)%nat).
Proof.
  intros Hb.
  pose proof (mirrored_continuous blocks 1
     (MkParam [morigin p o i] [mtarget p o i] (Nat.min blocks (mp_counter p))) 0 Hb) as H.
  destruct (Nat.le_gt_cases (mp_counter p) blocks) as [L|L].
  - rewrite Nat.min_r in H by exact L. apply H. split; [reflexivity|]. split; [reflexivity|]. exact L.
  - clear H. unfold mboundary, blend, counter_ratio.
    fold (morigin p o i). fold (mtarget p o i). set (a := morigin p o i). set (b := mtarget p o i).
    set (c := mp_counter p) in *. assert (N : nq blocks <> 0) by (apply nq_neq_0; lia). split.
    + intros E. left.
      assert (E2 : (b - a) * (nq blocks - nq (2 * c)) = 0).
      { rewrite nq_mult. change (nq 2) with (1 + 1).
        assert (E3 : (b - a) * (1 - (1 + 1) * (nq c / nq blocks)) = 0).
        { transitivity (a + b - ((1 - nq c / nq blocks) * a + nq c / nq blocks * b)
                        - ((1 - nq c / nq blocks) * a + nq c / nq blocks * b)); [ring|].
          rewrite E. ring. }
        transitivity (nq blocks * ((b - a) * (1 - (1 + 1) * (nq c / nq blocks)))).
        - field. exact N.
        - rewrite E3. ring. }
      apply Qcmult_integral in E2 as [E2|E2].
      * clear - E2. qclra.
      * exfalso. assert (nq blocks = nq (2 * c)) by (clear - E2; qclra). apply nq_inj in H. lia.
    + intros [E|E]; [rewrite E; ring|lia].
Qed.

Lemma map_res_length {A B} (f : A -> res B) l r : map_res f l = Ok r -> length r = length l.
Proof.
  revert r. induction l as [|x l IH]; intros r H; cbn [map_res] in H.
  - injection H as <-. reflexivity.
  - destruct (f x); cbn [bind] in H; try discriminate.
    destruct (map_res f l) as [r'| |] eqn:E; cbn [bind] in H; try discriminate.
    injection H as <-. simpl. rewrite (IH r' eq_refl). reflexivity.
Qed.

Lemma map_res_inv {A B} (f : A -> res B) l r da db : map_res f l = Ok r ->
  forall k, (k < length l)%nat -> f (nth k l da) = Ok (nth k r db).
Proof.
  revert r. induction l as [|x l IH]; intros r H k Hk; [simpl in Hk; lia|]. cbn [map_res] in H.
  destruct (f x) eqn:E1; cbn [bind] in H; try discriminate.
  destruct (map_res f l) as [r'| |] eqn:E; cbn [bind] in H; try discriminate.
  injection H as <-. destruct k as [|k]; [exact E1|]. cbn [nth]. apply IH; [reflexivity|]. simpl in Hk. lia.
Qed.

Lemma dl_interpolate_length dl ch n a b ga gb out :
  dl_interpolate dl ch n a b ga gb = Ok out -> length out = n.
Proof.
  unfold dl_interpolate. destruct (nth_error _ ch); [|discriminate].
  destruct (read_offset _ _); cbn [bind]; try discriminate.
  destruct (adjust_delay dl a); cbn [bind]; try discriminate.
  destruct (adjust_delay dl b); cbn [bind]; try discriminate.
  unfold lagrange_interpolate. destruct (Nat.ltb _ n); [discriminate|].
  intros H. apply map_res_length in H. rewrite H, combine_length, !ramp_length. lia.
Qed.

Lemma add_blocks_nth a b n t : length a = n -> length b = n -> (t < n)%nat ->
  nth t (add_blocks a b) 0 = nth t a 0 + nth t b 0.
Proof.
  intros La Lb Ht. unfold add_blocks. rewrite nth_map_combine with (da := 0) (db := 0) by lia. reflexivity.
Qed.
Lemma add_blocks_length a b n : length a = n -> length b = n -> length (add_blocks a b) = n.
Proof. intros La Lb. unfold add_blocks. rewrite map_length, combine_length. lia. Qed.

Lemma fold_add l n : forall acc, length acc = n -> Forall (fun b => length b = n) l ->
  length (fold_left add_blocks l acc) = n
  /\ forall t, (t < n)%nat ->
     nth t (fold_left add_blocks l acc) 0 = nth t acc 0 + qsum (map (fun b => nth t b 0) l).
Proof.
  induction l as [|b l IH]; intros acc La Hl; cbn [fold_left map qsum].
  - split; [exact La|]. intros t Ht. ring.
  - apply Forall_cons_iff in Hl as [Lb Hl].
    destruct (IH (add_blocks acc b)) as [L N].
    { now apply add_blocks_length. } { exact Hl. }
    split; [exact L|]. intros t Ht. rewrite N by exact Ht.
    rewrite (add_blocks_nth acc b n) by assumption. ring.
Qed.

Lemma map_nth_seq {A} (l : list A) d : map (fun k => nth k l d) (seq 0 (length l)) = l.
Proof.
  induction l as [|x l IH]; [reflexivity|]. cbn [length]. rewrite <- cons_seq. cbn [map nth]. f_equal.
  rewrite <- seq_shift, map_map. exact IH.
Qed.

Section Matrix.
  Context (inputs outputs block max order alignment : nat) (fs : Qc) (pol : policy) (blocks : nat).
  Context (Hlen : (1 <= max + block)%nat) (Hblocks : (1 <= blocks)%nat).

  Record dm_inv (v : dmat) (h : nat -> list Qc) (gt dt : matrix * nat) : Prop := {
    mi_line : dl_inv inputs block max order alignment fs pol (dm_line v) h;
    mi_inputs : dm_inputs v = inputs;
    mi_outputs : dm_outputs v = outputs;
    mi_blocks : dm_blocks v = blocks;
    mi_gain : mparam_ok blocks outputs inputs (dm_gain v);
    mi_delay : mparam_ok blocks outputs inputs (dm_delay v);
    mi_gt : mp_next (dm_gain v) = fst gt /\ mp_counter (dm_gain v) = Nat.min blocks (snd gt);
    mi_dt : mp_next (dm_delay v) = fst dt /\ mp_counter (dm_delay v) = Nat.min blocks (snd dt)
  }.

  Lemma dm_set_gain_inv v h gt dt g v' : dm_inv v h gt dt -> dm_set_gain v g = Ok v' ->
    dm_inv v' h (g, 0%nat) dt
    /\ forall o i, (o < outputs)%nat -> (i < inputs)%nat ->
        mboundary blocks (dm_gain v') o i
        = if Nat.ltb (mp_counter (dm_gain v)) blocks
          then morigin (dm_gain v) o i + mtarget (dm_gain v) o i - mboundary blocks (dm_gain v) o i
          else mboundary blocks (dm_gain v) o i.
  Proof.
    intros [I1 I2 I2' I3 I4 I5 I6 I7] E. unfold dm_set_gain in E. rewrite I2, I2', I3 in E.
    destruct (set_mparam gain_ratio blocks outputs inputs (dm_gain v) g) as [p'| |] eqn:Ep;
      cbn [bind] in E; try discriminate. injection E as <-.
    pose proof (set_mparam_inv _ _ _ _ _ _ _ Ep) as Hg.
    destruct (set_mparam_ok gain_ratio blocks outputs inputs (dm_gain v) g gain_is_ratio Hblocks I4 Hg)
      as (p2 & E2 & K1 & K2 & K3 & K4).
    assert (p2 = p') by congruence. subst p2. cbn [dm_gain]. split; [|exact K4].
    constructor; cbn; try assumption; try reflexivity. split; [exact K2|]. rewrite K3. lia.
  Qed.

  Lemma dm_set_delay_inv v h gt dt d v' : dm_inv v h gt dt -> dm_set_delay v d = Ok v' ->
    dm_inv v' h gt (d, 0%nat)
    /\ forall o i, (o < outputs)%nat -> (i < inputs)%nat ->
        mboundary blocks (dm_delay v') o i
        = if Nat.ltb (mp_counter (dm_delay v)) blocks
          then morigin (dm_delay v) o i + mtarget (dm_delay v) o i - mboundary blocks (dm_delay v) o i
          else mboundary blocks (dm_delay v) o i.
  Proof.
    intros [I1 I2 I2' I3 I4 I5 I6 I7] E. unfold dm_set_delay in E. rewrite I2, I2', I3 in E.
    destruct (set_mparam delay_ratio blocks outputs inputs (dm_delay v) d) as [p'| |] eqn:Ep;
      cbn [bind] in E; try discriminate. injection E as <-.
    pose proof (set_mparam_inv _ _ _ _ _ _ _ Ep) as Hg.
    destruct (set_mparam_ok delay_ratio blocks outputs inputs (dm_delay v) d delay_is_ratio Hblocks I5 Hg)
      as (p2 & E2 & K1 & K2 & K3 & K4).
    assert (p2 = p') by congruence. subst p2. cbn [dm_delay]. split; [|exact K4].
    constructor; cbn; try assumption; try reflexivity. split; [exact K2|]. rewrite K3. lia.
  Qed.

  Lemma dm_process_inv v h gt dt x v' out : dm_inv v h gt dt ->
    length x = inputs -> Forall (fun l => length l = block) x ->
    dm_process v x = Ok (v', out) ->
    dm_inv v' (fun ch => h ch ++ nth ch x []) (fst gt, S (snd gt)) (fst dt, S (snd dt))
    /\ dm_gain v' = madvance blocks (dm_gain v) /\ dm_delay v' = madvance blocks (dm_delay v)
    /\ exists part : nat -> nat -> list Qc,
       (forall o i, (o < outputs)%nat -> (i < inputs)%nat ->
         dl_interpolate (dm_line v') i block
           (mboundary blocks (dm_delay v) o i) (mboundary blocks (dm_delay v') o i)
           (mboundary blocks (dm_gain v) o i) (mboundary blocks (dm_gain v') o i)
         = Ok (part o i))
       /\ block_matches outputs block out
            (fun o t => qsum (map (fun i => nth t (part o i) 0) (seq 0 inputs))).
  Proof.
    intros [I1 I2 I2' I3 I4 I5 [I6 I6'] [I7 I7']] Hx1 Hx2 E. unfold dm_process in E.
    rewrite I2, I2', I3 in E.
    destruct (dl_write_inv inputs block max order alignment fs pol Hlen (dm_line v) h x I1)
      as (dl' & Ew & Iw).
    { lia. } { eapply Forall_impl; [|exact Hx2]. simpl. lia. }
    rewrite Ew in E. cbn [bind] in E.
    assert (Iw' : dl_inv inputs block max order alignment fs pol dl' (fun ch => h ch ++ nth ch x [])).
    { eapply dl_inv_ext; [exact Iw|]. intros ch Hch. cbn beta. f_equal. apply firstn_all2.
      rewrite Forall_forall in Hx2. rewrite (Hx2 (nth ch x [])); [lia|]. apply nth_In. lia. }
    rewrite (di_block _ _ _ _ _ _ _ _ _ Iw) in E.
    match type of E with bind ?m _ = _ => destruct m as [o| |] eqn:Em end; cbn [bind] in E; try discriminate.
    injection E as <- <-. cbn [dm_gain dm_delay dm_line].
    split.
    - constructor; cbn; try assumption; try reflexivity; try (apply madvance_ok; assumption).
      + split; [exact I6|]. rewrite I6'. lia.
      + split; [exact I7|]. rewrite I7'. lia.
    - split; [reflexivity|]. split; [reflexivity|].
      set (interp := fun o i => dl_interpolate dl' i block
           (mboundary blocks (dm_delay v) o i) (mboundary blocks (madvance blocks (dm_delay v)) o i)
           (mboundary blocks (dm_gain v) o i) (mboundary blocks (madvance blocks (dm_gain v)) o i)).
      assert (Row : forall k, (k < outputs)%nat -> exists parts,
          map_res (interp k) (seq 0 inputs) = Ok parts
          /\ nth k o [] = fold_left add_blocks parts (repeat 0 block)).
      { intros k Hk.
        pose proof (map_res_inv _ _ _ 0%nat (@nil Qc) Em k) as M. rewrite seq_length in M.
        specialize (M Hk). rewrite seq_nth in M by exact Hk. rewrite Nat.add_0_l in M.
        match type of M with bind ?m _ = _ => destruct m as [parts| |] eqn:Ep end; cbn [bind] in M; try discriminate.
        exists parts. split; [|congruence].
        rewrite <- Ep. clear - Hk I4 I5.
        assert (G : forall l, (forall i, In i l -> (i < inputs)%nat) ->
           map_res (interp k) l = map_res (fun i =>
            bind (mparam_at blocks (dm_delay v) (mp_counter (dm_delay v)) k i) (fun sd =>
            bind (mparam_at blocks (dm_delay v) (Nat.min (mp_counter (dm_delay v) + 1) blocks) k i) (fun ed =>
            bind (mparam_at blocks (dm_gain v) (mp_counter (dm_gain v)) k i) (fun sg =>
            bind (mparam_at blocks (dm_gain v) (Nat.min (mp_counter (dm_gain v) + 1) blocks) k i) (fun eg =>
            dl_interpolate dl' i block sd ed sg eg))))) l).
        { induction l as [|i l IH]; intros Hl; [reflexivity|]. cbn [map_res].
          rewrite IH by (intros j Hj; apply Hl; right; exact Hj).
          assert (Hi : (i < inputs)%nat) by (apply Hl; left; reflexivity).
          rewrite (mparam_start_ok blocks outputs inputs (dm_delay v) k i I5 Hk Hi).
          rewrite (mparam_end_ok blocks outputs inputs (dm_delay v) k i I5 Hk Hi).
          rewrite (mparam_start_ok blocks outputs inputs (dm_gain v) k i I4 Hk Hi).
          rewrite (mparam_end_ok blocks outputs inputs (dm_gain v) k i I4 Hk Hi).
          reflexivity. }
        apply G. intros i Hi. apply in_seq in Hi. lia. }
      exists (fun k i => match interp k i with Ok l => l | _ => [] end).
      assert (Part : forall k i, (k < outputs)%nat -> (i < inputs)%nat -> exists l, interp k i = Ok l).
      { intros k i Hk Hi. destruct (Row k Hk) as (parts & Ep & _).
        pose proof (map_res_inv _ _ _ 0%nat (@nil Qc) Ep i) as M. rewrite seq_length in M.
        specialize (M Hi). rewrite seq_nth in M by exact Hi. rewrite Nat.add_0_l in M. eauto. }
      split.
      + intros k i Hk Hi. destruct (Part k i Hk Hi) as (l & El). unfold interp in *. rewrite El. reflexivity.
      + assert (RowV : forall k, (k < outputs)%nat -> length (nth k o []) = block
          /\ forall t, (t < block)%nat -> nth t (nth k o []) 0
             = qsum (map (fun i => nth t (match interp k i with Ok l => l | _ => [] end) 0) (seq 0 inputs))).
        { intros k Hk. destruct (Row k Hk) as (parts & Ep & ->).
          pose proof (map_res_length _ _ _ Ep) as Lp. rewrite seq_length in Lp.
          assert (Np : forall i, (i < inputs)%nat -> interp k i = Ok (nth i parts [])).
          { intros i Hi. pose proof (map_res_inv _ _ _ 0%nat (@nil Qc) Ep i) as M. rewrite seq_length in M.
            specialize (M Hi). rewrite seq_nth in M by exact Hi. exact M. }
          destruct (fold_add parts block (repeat 0 block)) as [L N].
          { apply repeat_length. }
          { apply Forall_forall. intros b Hb. destruct (In_nth parts b [] Hb) as (i & Hi & <-).
            rewrite Lp in Hi. specialize (Np i Hi). unfold interp in Np.
            now apply dl_interpolate_length in Np. }
          split; [exact L|]. intros t Ht. rewrite N by exact Ht. rewrite nth_repeat, Qcplus_0_l.
          f_equal. rewrite <- (map_nth_seq parts []) at 1. rewrite map_map, Lp.
          apply map_ext_in. intros i Hi. apply in_seq in Hi. rewrite Np by lia. reflexivity. }
        split; [apply map_res_length in Em; rewrite seq_length in Em; exact Em|].
        split; [intros k Hk; apply RowV; exact Hk|]. intros k t Hk Ht. apply RowV; assumption.
  Qed.

  Lemma dm_run_inv ops : forall v h gt dt v' outs, dm_inv v h gt dt ->
    Forall (dm_op_ok inputs block) ops -> dm_run v ops = Ok (v', outs) ->
    dm_inv v' (fun ch => h ch ++ minput_history ops ch)
           (fold_left mgain_track ops gt) (fold_left mdelay_track ops dt).
  Proof.
    induction ops as [|[g|d|x] ops IH]; intros v h gt dt v' outs I Hops Hr.
    - injection Hr as <- _. cbn [minput_history fold_left].
      destruct I as [A B B' C D E F G]. constructor; try assumption.
      eapply dl_inv_ext; [exact A|]. intros ch _. cbn beta. rewrite app_nil_r. reflexivity.
    - apply Forall_cons_iff in Hops as [_ Hops]. cbn [dm_run] in Hr.
      destruct (dm_set_gain v g) as [v1| |] eqn:E1; cbn [bind] in Hr; try discriminate.
      exact (IH v1 h _ _ v' outs (proj1 (dm_set_gain_inv v h gt dt g v1 I E1)) Hops Hr).
    - apply Forall_cons_iff in Hops as [_ Hops]. cbn [dm_run] in Hr.
      destruct (dm_set_delay v d) as [v1| |] eqn:E1; cbn [bind] in Hr; try discriminate.
      exact (IH v1 h _ _ v' outs (proj1 (dm_set_delay_inv v h gt dt d v1 I E1)) Hops Hr).
    - apply Forall_cons_iff in Hops as [[Hx1 Hx2] Hops]. cbn [dm_run] in Hr.
      destruct (dm_process v x) as [[v1 o]| |] eqn:E1; cbn [bind] in Hr; try discriminate.
      destruct (dm_run v1 ops) as [[v2 os]| |] eqn:E2; cbn [bind] in Hr; try discriminate.
      injection Hr as <- _.
      destruct (dm_process_inv v h gt dt x v1 o I Hx1 Hx2 E1) as (I1 & _).
      pose proof (IH v1 _ _ _ v2 os I1 Hops E2) as I2.
      cbn [minput_history]. cbn [fold_left mgain_track mdelay_track].
      destruct I2 as [A B B' C D E F G]. constructor; try assumption.
      eapply dl_inv_ext; [exact A|]. intros ch _. cbn beta. rewrite app_assoc. reflexivity.
  Qed.

  (** Totality, as for the vector. *)
  Lemma dm_process_ok v h gt dt x : dm_inv v h gt dt ->
    length x = inputs -> Forall (fun l => length l = block) x ->
    (forall o i, (o < outputs)%nat -> (i < inputs)%nat ->
       admissible max order pol (mboundary blocks (dm_delay v) o i * fs)
       /\ admissible max order pol (mboundary blocks (madvance blocks (dm_delay v)) o i * fs)) ->
    exists v' out, dm_process v x = Ok (v', out).
  Proof.
    intros [I1 I2 I2' I3 I4 I5 [I6 I6'] [I7 I7']] Hx1 Hx2 Hadm. unfold dm_process. rewrite I2, I2', I3.
    destruct (dl_write_inv inputs block max order alignment fs pol Hlen (dm_line v) h x I1)
      as (dl' & Ew & Iw).
    { lia. } { eapply Forall_impl; [|exact Hx2]. simpl. lia. }
    rewrite Ew. cbn [bind]. set (F := fun ch : nat => bind _ _).
    assert (Hm : exists outs, map_res F (seq 0 outputs) = Ok outs).
    { destruct (map_res_ok F (seq 0 outputs)) as (r & Er & _); [|exists r; exact Er].
      intros o Ho. apply in_seq in Ho. unfold F.
      match goal with |- exists y, bind (map_res ?f ?l) _ = _ => set (G := f) end.
      destruct (map_res_ok G (seq 0 inputs)) as (r & -> & _); [|cbn [bind]; eauto].
      intros i Hi. apply in_seq in Hi. unfold G.
      rewrite (mparam_start_ok blocks outputs inputs) by (first [assumption|lia]).
      rewrite (mparam_end_ok blocks outputs inputs) by (first [assumption|lia]).
      rewrite (mparam_start_ok blocks outputs inputs) by (first [assumption|lia]).
      rewrite (mparam_end_ok blocks outputs inputs) by (first [assumption|lia]).
      cbn [bind]. rewrite (di_block _ _ _ _ _ _ _ _ _ Iw).
      destruct (Hadm o i ltac:(lia) ltac:(lia)) as [A1 A2].
      rewrite (dl_interpolate_ok inputs block max order alignment fs pol Hlen dl' _ i block
        _ _ _ _ _ _ Iw ltac:(lia) (le_n _) eq_refl eq_refl A1 A2). eauto. }
    destruct Hm as (outs & ->). cbn [bind]. eauto.
  Qed.
End Matrix.
