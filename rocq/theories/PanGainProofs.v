(** PanningGainMatrix: the loop over the segments of a block refines the trajectories. *)
From Verif Require Import Base Memory Num PanGainModel PanGainSpec.
From Coq Require Import Lia.
Local Open Scope res_scope.
Local Open Scope nat_scope.

(** the stored transition of an object *)
Definition pending (r : row) : option (nat * nat * list Qc) :=
  match pendT r, pendD r with
  | Some s, Some d => Some (s, d, pendG r)
  | _, _ => None
  end.
(** [a <= b] for times *)
Definition tle (a b : time) : Prop :=
  match b with None => True | Some b => match a with None => False | Some a => a <= b end end.
Definition tlt (a : nat) (b : time) : Prop := match b with None => True | Some b => a < b end.

(** a state of the code at time [cur] and a trajectory *)
Record related (m : nat) (r : row) (x : trajectory) (cur : nat) : Prop := Related {
  rel_len_prev : length (prevG r) = m;
  rel_len_targ : length (targG r) = m;
  rel_len_pend : pendT r <> None -> length (pendG r) = m;
  rel_len_from : length (t_from x) = m;
  rel_past : prevT r <= cur;
  rel_targ : tlt cur (targT r);
  rel_order : tle (targT r) (pendT r);
  rel_dur : pendT r <> None -> pendD r <> None;
  rel_next : t_next x = pending r;
  rel_to : targG r = t_to x;
  rel_phase :
    (prevG r = t_to x /\ t_end x <= cur)
    \/ (prevG r = t_from x /\ prevT r = t_start x /\ targT r = Some (t_end x) /\ 0 < t_dur x) }.

Lemma before_true a t : before a t = true <-> tlt a t.
Proof. destruct t; cbn; [apply Nat.ltb_lt|tauto]. Qed.

Lemma related_pend m r x cur : related m r x cur -> tlt cur (pendT r).
Proof.
  intros H. pose proof (rel_targ _ _ _ _ H) as T. pose proof (rel_order _ _ _ _ H) as O.
  destruct (pendT r); cbn in *; [|trivial]. destruct (targT r); cbn in *; [lia|contradiction].
Qed.

(** *** Trajectories *)
Lemma gains_at_length m x t : length (t_from x) = m -> length (t_to x) = m -> length (gains_at x t) = m.
Proof. intros A B. unfold gains_at. rewrite map_length, combine_length, A, B. lia. Qed.

Lemma combine_right {A B} (f : A * B -> B) : (forall p, f p = snd p) ->
  forall (l : list A) (l' : list B), length l = length l' -> map f (combine l l') = l'.
Proof.
  intros Hf; induction l as [|a l IH]; intros [|b l']; cbn; intros E; try discriminate; [reflexivity|].
  rewrite Hf, IH by lia. reflexivity.
Qed.
Lemma combine_left {A B} (f : A * B -> A) : (forall p, f p = fst p) ->
  forall (l : list A) (l' : list B), length l = length l' -> map f (combine l l') = l.
Proof.
  intros Hf; induction l as [|a l IH]; intros [|b l']; cbn; intros E; try discriminate; [reflexivity|].
  rewrite Hf, IH by lia. reflexivity.
Qed.

Lemma gains_at_end m x t : length (t_from x) = m -> length (t_to x) = m -> t_end x <= t -> gains_at x t = t_to x.
Proof.
  intros A B H. unfold gains_at. apply combine_right; [|lia].
  intros p. unfold progress. apply Nat.leb_le in H. rewrite H. ring.
Qed.
Lemma gains_at_start m x : length (t_from x) = m -> length (t_to x) = m -> 0 < t_dur x -> gains_at x (t_start x) = t_from x.
Proof.
  intros A B H. unfold gains_at. apply combine_left; [|lia].
  intros p. unfold progress, t_end.
  destruct (Nat.leb_spec (t_start x + t_dur x) (t_start x)); [lia|].
  rewrite Nat.sub_diag, nq_0. unfold Qcdiv. ring.
Qed.

Lemma pass_idle x : forall k t, (forall s d g, t_next x = Some (s, d, g) -> t + k < s) -> pass x t k = x.
Proof.
  induction k as [|k IH]; intros t H; cbn [pass]; [reflexivity|].
  rewrite IH by (intros s d g E; specialize (H s d g E); lia).
  unfold tick. destruct (t_next x) as [[[s d] g]|] eqn:E; [|reflexivity].
  specialize (H s d g eq_refl). destruct (Nat.eqb_spec s (t + S k)); [lia|reflexivity].
Qed.
Lemma pass_add x t : forall k2 k1, pass x t (k1 + k2) = pass (pass x t k1) (t + k1) k2.
Proof.
  induction k2 as [|k2 IH]; intros k1; cbn [pass]; [now rewrite Nat.add_0_r|].
  rewrite Nat.add_succ_r. cbn [pass]. rewrite IH. f_equal. lia.
Qed.

(** *** One segment *)
Lemma seg_length out start dur (v : list Qc) : start + dur <= length out -> length v = dur ->
  length (firstn start out ++ v ++ skipn (start + dur) out) = length out.
Proof. intros A B. rewrite !app_length, firstn_length, skipn_length. lia. Qed.
Lemma seg_nth out start dur (f : nat -> Qc) i : start + dur <= length out ->
  nth i (firstn start out ++ map f (seq 0 dur) ++ skipn (start + dur) out) 0%Qc
  = if (start <=? i) && (i <? start + dur) then f (i - start) else nth i out 0%Qc.
Proof.
  intros H.
  assert (L1 : length (firstn start out) = start) by (rewrite firstn_length; lia).
  destruct (Nat.leb_spec start i); cbn [andb].
  - rewrite app_nth2 by lia. rewrite L1.
    destruct (Nat.ltb_spec i (start + dur)).
    + rewrite app_nth1 by (rewrite map_length, seq_length; lia).
      rewrite nth_indep with (d' := f 0) by (rewrite map_length, seq_length; lia).
      rewrite (map_nth f), seq_nth by lia. reflexivity.
    + rewrite app_nth2 by (rewrite map_length, seq_length; lia).
      rewrite map_length, seq_length.
      rewrite <- (firstn_skipn (start + dur) out) at 2.
      rewrite app_nth2 by (rewrite firstn_length; lia). rewrite firstn_length.
      f_equal. lia.
  - rewrite app_nth1 by lia.
    rewrite <- (firstn_skipn start out) at 2. rewrite app_nth1 by lia. reflexivity.
Qed.

(** the gains within a segment *)
Lemma segment_gain m r x cur k l :
  related m r x cur -> tle (Some (cur + S k)) (targT r) -> l < m ->
  let p := nth l (prevG r) 0%Qc in
  let t := nth l (targG r) 0%Qc in
  (p + ratio cur (prevT r) (targT r) * (t - p) + inc_ratio (prevT r) (targT r) * (t - p) * (1 + nq k * 1))%Qc
  = nth l (gains_at x (cur + S k)) 0%Qc.
Proof.
  intros H Hk Hl p t.
  destruct H as [Lp Lt Lpd Lf Hp Ht Ho Hd Hn Hto Hph].
  destruct Hph as [[E1 E2]|(E1 & E2 & E3 & E4)].
  - rewrite (gains_at_end m) by (try congruence; lia).
    subst p t. rewrite Hto, E1. set (a := nth l (t_to x) 0%Qc). ring.
  - unfold gains_at.
    assert (Lto : length (t_to x) = m) by congruence.
    rewrite nth_indep with (d' := (fst (0%Qc, 0%Qc) + progress x (cur + S k) * (snd (0%Qc, 0%Qc) - fst (0%Qc, 0%Qc)))%Qc)
      by (rewrite map_length, combine_length, Lf, Lto; lia).
    rewrite (map_nth (fun q => (fst q + progress x (cur + S k) * (snd q - fst q))%Qc)).
    rewrite combine_nth by congruence. cbn [fst snd].
    rewrite <- E1, <- Hto. fold p t.
    rewrite E3 in Hk |- *. cbn in Hk. unfold ratio, inc_ratio. rewrite E2.
    assert (D : t_end x - t_start x = t_dur x) by (unfold t_end; lia). rewrite D.
    assert (Hq : nq (t_dur x) <> 0%Qc) by (apply nq_neq_0; lia).
    assert (P : progress x (cur + S k) = (nq (cur + S k - t_start x) / nq (t_dur x))%Qc).
    { unfold progress. destruct (Nat.leb_spec (t_end x) (cur + S k)); [|reflexivity].
      replace (cur + S k - t_start x) with (t_dur x) by (unfold t_end in *; lia).
      field. exact Hq. }
    rewrite P. replace (cur + S k - t_start x) with ((cur - t_start x) + S k) by lia.
    rewrite nq_plus, nq_S. field. exact Hq.
Qed.

Definition shaped (m b : nat) (outs : list (list Qc)) : Prop := length outs = m /\ Forall (fun o => length o = b) outs.

Lemma shaped_nth m b outs l : shaped m b outs -> l < m -> length (nth l outs []) = b.
Proof.
  intros [A B] H. rewrite Forall_forall in B. apply B. apply nth_In. lia.
Qed.

Lemma map_res_all {A B} (f : A -> res B) (g : A -> B) l : (forall a, In a l -> f a = Ok (g a)) -> map_res f l = Ok (map g l).
Proof.
  induction l as [|a l IH]; cbn; intros H; [reflexivity|].
  rewrite H by auto. cbn [bind]. rewrite IH by auto. reflexivity.
Qed.

Lemma single_slope_ok period m r x cur start dur acc inp outs :
  related m r x cur -> tle (Some (cur + dur)) (targT r) ->
  shaped m period outs -> length inp = period -> start + dur <= period ->
  exists outs', single_slope period r cur start dur acc inp outs = Ok outs'
    /\ shaped m period outs'
    /\ forall l i, l < m ->
       nth i (nth l outs' []) 0%Qc
       = if (start <=? i) && (i <? start + dur)
         then ((if acc then nth i (nth l outs []) 0 else 0)
               + nth l (gains_at x (cur + S (i - start))) 0 * nth i inp 0)%Qc
         else nth i (nth l outs []) 0%Qc.
Proof.
  intros R Hd [So Sb] Hi Hs. unfold single_slope.
  set (g := fun q : (Qc * Qc) * list Qc =>
     let '(p, t, out) := q in
     firstn start out
     ++ map (fun k => (if acc then nth (start + k) out 0 else 0)
                      + (p + ratio cur (prevT r) (targT r) * (t - p)
                         + inc_ratio (prevT r) (targT r) * (t - p) * (1 + nq k * 1)) * nth (start + k) inp 0)%Qc (seq 0 dur)
     ++ skipn (start + dur) out).
  assert (L1 : length (combine (prevG r) (targG r)) = m)
    by (rewrite combine_length, (rel_len_prev _ _ _ _ R), (rel_len_targ _ _ _ _ R); lia).
  assert (L2 : length (combine (combine (prevG r) (targG r)) outs) = m) by (rewrite combine_length, L1, So; lia).
  exists (map g (combine (combine (prevG r) (targG r)) outs)).
  split; [|split].
  - apply map_res_all. intros [[p t] out] I. apply in_combine_r in I.
    rewrite Forall_forall in Sb. specialize (Sb _ I). unfold scale_signal.
    rewrite Hi, Sb.
    destruct (Nat.ltb_spec period (start + dur)); [lia|].
    destruct (Nat.ltb_spec period dur); [lia|]. cbn [orb]. reflexivity.
  - split; [rewrite map_length; exact L2|].
    rewrite Forall_forall in Sb |- *. intros o I. apply in_map_iff in I as ([[p t] out] & <- & I).
    apply in_combine_r in I. specialize (Sb _ I). cbn [g].
    rewrite seg_length; [exact Sb|lia|]. now rewrite map_length, seq_length.
  - intros l i Hl.
    rewrite nth_indep with (d' := g (0%Qc, 0%Qc, [])) by (rewrite map_length; lia).
    rewrite (map_nth g), combine_nth by (rewrite L1; congruence).
    rewrite combine_nth by (rewrite (rel_len_prev _ _ _ _ R), (rel_len_targ _ _ _ _ R); reflexivity).
    cbn [g]. rewrite seg_nth.
    2:{ rewrite (shaped_nth m period) by (try split; assumption). lia. }
    destruct (Nat.leb_spec start i); cbn [andb]; [|reflexivity].
    destruct (Nat.ltb_spec i (start + dur)); [|reflexivity].
    replace (start + (i - start)) with i by lia.
    f_equal. f_equal. apply (segment_gain m); [exact R| |exact Hl].
    destruct (targT r); cbn in *; [lia|trivial].
Qed.

(** *** End of a segment *)
Lemma pending_none r : pendT r = None -> pending r = None.
Proof. intros E. unfold pending. now rewrite E. Qed.

Lemma advance_related m r x cur dur :
  related m r x cur -> 0 < dur -> targT r = Some (cur + dur) ->
  related m (advance r (cur + dur)) (pass x cur dur) (cur + dur).
Proof.
  intros [Lp Lt Lpd Lf Hp Ht Ho Hd Hn Hto Hph] D E.
  assert (Ee : t_end x <= cur + dur).
  { destruct Hph as [[_ H]|(_ & _ & H & _)]; [lia|]. rewrite E in H. injection H as H. lia. }
  assert (Lto : length (t_to x) = m) by congruence.
  assert (Pd : pass x cur dur = tick x (cur + dur)).
  { destruct dur as [|k]; [lia|]. cbn [pass]. f_equal. apply pass_idle.
    intros s d g En. rewrite Hn in En. unfold pending in En. rewrite E in Ho. cbn in Ho.
    destruct (pendT r); [|discriminate]. destruct (pendD r); [|discriminate].
    injection En as <- _ _. cbn in Ho. lia. }
  rewrite Pd. unfold advance, tick. rewrite Hn. unfold pending, is_at.
  rewrite E in Ho.
  destruct (pendT r) as [s|] eqn:Es.
  - cbn in Ho. destruct (pendD r) as [d|] eqn:Ed; [|exfalso; apply Hd; congruence].
    specialize (Lpd ltac:(discriminate)).
    destruct (Nat.eqb_spec s (cur + dur)) as [E1|N].
    + rewrite E1. rewrite (gains_at_end m) by assumption.
      destruct d as [|d].
      * constructor; cbn [prevT targT prevG targG pendT pendD pendG t_start t_dur t_from t_to t_next];
          try assumption; try congruence; try exact I; try reflexivity; try lia.
        left. split; [reflexivity|]. unfold t_end; cbn. lia.
      * constructor; cbn [prevT targT prevG targG pendT pendD pendG t_start t_dur t_from t_to t_next tadd tlt tle];
          try assumption; try congruence; try exact I; try reflexivity; try lia.
        right. repeat split; try assumption; try reflexivity; lia.
    + constructor; cbn [prevT targT prevG targG pendT pendD pendG tlt tle];
        try assumption; try congruence; try lia.
      * rewrite Hn. unfold pending. cbn [pendT pendD pendG]. now rewrite Es, Ed.
      * left. split; [congruence|lia].
  - constructor; cbn [prevT targT prevG targG pendT pendD pendG tlt tle];
      try assumption; try congruence; try lia; try exact I.
    + rewrite Hn. unfold pending. cbn [pendT pendD pendG]. now rewrite Es.
    + left. split; [congruence|lia].
Qed.

Lemma hold_related m r x cur dur :
  related m r x cur -> tlt (cur + dur) (targT r) ->
  related m r (pass x cur dur) (cur + dur).
Proof.
  intros [Lp Lt Lpd Lf Hp Ht Ho Hd Hn Hto Hph] D.
  rewrite pass_idle.
  - constructor; try assumption; [lia|]. destruct Hph as [[A B]|B]; [left; split; [exact A|lia]|right; exact B].
  - intros s d g En. rewrite Hn in En. unfold pending in En.
    destruct (pendT r); [|discriminate]. destruct (pendD r); [|discriminate]. injection En as <- _ _.
    destruct (targT r); cbn in *; [lia|contradiction].
Qed.

(** *** The loop *)
Lemma row_loop_ok period m inp acc : length inp = period -> forall fuel r x cur stop offset outs,
  related m r x cur -> cur <= stop -> stop - cur <= fuel -> offset + (stop - cur) = period ->
  shaped m period outs ->
  exists r' outs', row_loop fuel period r cur stop offset acc inp outs = Ok (r', outs')
    /\ related m r' (pass x cur (stop - cur)) stop
    /\ shaped m period outs'
    /\ forall l i, l < m -> i < period ->
       nth i (nth l outs' []) 0%Qc
       = if offset <=? i
         then ((if acc then nth i (nth l outs []) 0 else 0)
               + nth l (gains_at (pass x cur (i - offset)) (cur + S (i - offset))) 0 * nth i inp 0)%Qc
         else nth i (nth l outs []) 0%Qc.
Proof.
  intros Hi; induction fuel as [|fuel IH]; intros r x cur stop offset outs R Hc Hf Ho So.
  - assert (stop = cur) by lia. subst stop. cbn [row_loop].
    destruct (Nat.ltb_spec cur cur); [lia|]. exists r, outs. rewrite Nat.sub_diag. cbn [pass].
    split; [reflexivity|split; [assumption|split; [assumption|]]]. intros l i Hl Hi'. destruct (Nat.leb_spec offset i); [lia|reflexivity].
  - cbn [row_loop]. destruct (Nat.ltb_spec cur stop) as [Lt|Ge].
    2:{ assert (stop = cur) by lia. subst stop. exists r, outs. rewrite Nat.sub_diag. cbn [pass].
        split; [reflexivity|split; [assumption|split; [assumption|]]]. intros l i Hl Hi'. destruct (Nat.leb_spec offset i); [lia|reflexivity]. }
    pose proof (rel_past _ _ _ _ R) as Hp. pose proof (rel_targ _ _ _ _ R) as Ht.
    pose proof (related_pend _ _ _ _ R) as Hpd.
    assert (B1 : before (prevT r) (targT r) = true).
    { apply before_true. destruct (targT r); cbn in *; [lia|trivial]. }
    apply before_true in Hpd. assert (B2 : before cur (targT r) = true) by now apply before_true.
    rewrite B1, B2, Hpd. cbn [negb orb].
    destruct (Nat.ltb_spec cur (prevT r)); [lia|]. cbn [orb].
    set (dur := tmin (targT r) stop - cur).
    assert (Dd : 0 < dur /\ cur + dur <= stop /\ tle (Some (cur + dur)) (targT r)
                 /\ (is_at (cur + dur) (targT r) = true -> targT r = Some (cur + dur))
                 /\ (is_at (cur + dur) (targT r) = false -> tlt (cur + dur) (targT r))).
    { unfold dur, tmin. destruct (targT r) as [t|]; cbn in *; repeat split; try lia; try trivial; try discriminate.
      - intros E. apply Nat.eqb_eq in E. congruence.
      - intros E. apply Nat.eqb_neq in E. lia. }
    clearbody dur. destruct Dd as (D0 & D1 & D2 & D3 & D4).
    destruct (single_slope_ok period m r x cur offset dur acc inp outs R D2 So Hi ltac:(lia)) as (o1 & E1 & S1 & V1).
    rewrite E1. cbn [bind].
    assert (R' : related m (if is_at (cur + dur) (targT r) then advance r (cur + dur) else r) (pass x cur dur) (cur + dur)).
    { destruct (is_at (cur + dur) (targT r)); [apply advance_related; auto|apply hold_related; auto]. }
    destruct (IH _ _ (cur + dur) stop (offset + dur) o1 R' ltac:(lia) ltac:(lia) ltac:(lia) S1)
      as (r' & o2 & E2 & R2 & S2 & V2).
    exists r', o2. rewrite E2. split; [reflexivity|].
    split; [|split; [exact S2|]].
    + replace (stop - cur) with (dur + (stop - (cur + dur))) by lia. rewrite pass_add. exact R2.
    + intros l i Hl Hi'. rewrite V2 by assumption.
      destruct (Nat.leb_spec (offset + dur) i).
      * destruct (Nat.leb_spec offset i); [|lia].
        rewrite V1 by assumption. destruct (Nat.leb_spec offset i); [|lia]. cbn [andb].
        destruct (Nat.ltb_spec i (offset + dur)); [lia|].
        f_equal.
        replace (i - offset) with (dur + (i - (offset + dur))) by lia. rewrite pass_add.
        replace (cur + dur + S (i - (offset + dur))) with (cur + S (dur + (i - (offset + dur)))) by lia.
        reflexivity.
      * rewrite V1 by assumption.
        destruct (Nat.leb_spec offset i); cbn [andb]; [|reflexivity].
        destruct (Nat.ltb_spec i (offset + dur)); [|lia].
        f_equal. f_equal. f_equal.
        symmetry. f_equal. apply pass_idle. intros s d g En.
        rewrite (rel_next _ _ _ _ R) in En. unfold pending in En.
        pose proof (rel_order _ _ _ _ R) as Od.
        destruct (pendT r); [|discriminate]. destruct (pendD r); [|discriminate]. injection En as <- _ _.
        destruct (targT r); cbn in *; [lia|contradiction].
Qed.

(** *** All objects *)
Lemma rows_loop_ok period now m : forall rows xs idx ins outs,
  Forall2 (fun r x => related m r x now) rows xs ->
  length ins = idx + length rows -> Forall (fun i => length i = period) ins -> shaped m period outs ->
  exists rows' outs', rows_loop period now idx rows ins outs = Ok (rows', outs')
    /\ Forall2 (fun r x => related m r x (now + period)) rows' (map (fun x => pass x now period) xs)
    /\ shaped m period outs'
    /\ (rows <> [] -> forall l i, l < m -> i < period ->
        nth i (nth l outs' []) 0%Qc
        = ((if idx =? 0 then 0 else nth i (nth l outs []) 0)
           + qsum (map (fun p => nth l (gains_at (pass (fst p) now i) (now + S i)) 0 * nth i (snd p) 0)
                       (combine xs (skipn idx ins))))%Qc).
Proof.
  induction rows as [|r rows IH]; intros xs idx ins outs F Hl Hi So.
  - inversion F; subst. cbn [rows_loop]. exists [], outs.
    split; [reflexivity|split; [constructor|split; [exact So|]]]. intros N; now contradiction N.
  - inversion F as [|r0 x rows0 xs0 R F' E1 E2]; subst. cbn [rows_loop].
    destruct (nth_error ins idx) as [inp|] eqn:En.
    2:{ apply nth_error_None in En. cbn in Hl. lia. }
    assert (Li : length inp = period) by (rewrite Forall_forall in Hi; apply Hi; eapply nth_error_In; eassumption).
    destruct (row_loop_ok period m inp (negb (idx =? 0)) Li period r x now (now + period) 0 outs R
                ltac:(lia) ltac:(lia) ltac:(lia) So) as (r' & o1 & E & R' & S1 & V1).
    rewrite E. cbn [bind fst snd].
    destruct (IH xs0 (S idx) ins o1 F' ltac:(cbn in Hl; lia) Hi S1) as (rows' & o2 & E2 & F2 & S2 & V2).
    rewrite E2. cbn [bind fst snd]. exists (r' :: rows'), o2.
    split; [reflexivity|]. split; [|split; [exact S2|]].
    + cbn [map]. constructor; [|exact F2]. replace period with (now + period - now) at 1 by lia.
      replace (now + period - now) with (now + period - now) by reflexivity. exact R'.
    + intros _ l i Hlm Hip.
      assert (Sk : skipn idx ins = inp :: skipn (S idx) ins).
      { clear - En. revert ins En. induction idx as [|k IHk]; intros [|a ins] E; try discriminate; cbn in *.
        - now injection E as ->.
        - now apply IHk. }
      rewrite Sk. cbn [combine map qsum fst snd].
      specialize (V1 l i Hlm Hip). cbn [Nat.leb] in V1. rewrite Nat.sub_0_r in V1.
      destruct rows as [|r1 rows].
      * inversion F'; subst. cbn [rows_loop] in E2. injection E2 as _ E2. subst o2.
        cbn [combine map qsum]. rewrite V1. destruct (idx =? 0); cbn [negb]; ring.
      * rewrite V2 by (try discriminate; assumption). cbn [Nat.eqb]. rewrite V1.
        destruct (idx =? 0); cbn [negb]; ring.
Qed.

Lemma list_eq_nth {A} (d : A) (l1 l2 : list A) : length l1 = length l2 ->
  (forall i, i < length l1 -> nth i l1 d = nth i l2 d) -> l1 = l2.
Proof. intros L H. apply (nth_ext _ _ d d L H). Qed.

Lemma shaped_eq m b f outs : shaped m b outs ->
  (forall l i, l < m -> i < b -> nth i (nth l outs []) 0%Qc = f l i) ->
  outs = map (fun l => map (f l) (seq 0 b)) (seq 0 m).
Proof.
  intros [Lo Lb] H. apply (list_eq_nth []); [now rewrite map_length, seq_length|].
  intros l Hl. rewrite Lo in Hl.
  rewrite nth_indep with (l := map _ _) (d' := (fun l => map (f l) (seq 0 b)) 0) by (now rewrite map_length, seq_length).
  rewrite (map_nth (fun l => map (f l) (seq 0 b))), seq_nth by assumption. cbn [Nat.add].
  assert (Ll : length (nth l outs []) = b) by (apply (shaped_nth m b outs l); [split; assumption|assumption]).
  apply (list_eq_nth 0%Qc); [now rewrite map_length, seq_length|].
  intros i Hi. rewrite Ll in Hi.
  rewrite nth_indep with (l := map _ _) (d' := f l 0) by (now rewrite map_length, seq_length).
  rewrite (map_nth (f l)), seq_nth by assumption. cbn [Nat.add]. now apply H.
Qed.

Lemma process_audio_ok period now m rows xs ins outs :
  Forall2 (fun r x => related m r x now) rows xs ->
  length ins = length rows -> Forall (fun i => length i = period) ins -> shaped m period outs ->
  exists rows', process_audio period now rows ins outs = Ok (rows', spec_block period now m xs ins)
    /\ Forall2 (fun r x => related m r x (now + period)) rows' (map (fun x => pass x now period) xs).
Proof.
  intros F Hl Hi So. destruct rows as [|r rows].
  - inversion F; subst. exists []. cbn [process_audio]. split; [|constructor].
    f_equal. f_equal. unfold spec_block. cbn [combine map qsum].
    apply (shaped_eq m period (fun _ _ => 0%Qc)).
    + destruct So as [A B]. split; [now rewrite map_length|].
      rewrite Forall_forall in B |- *. intros o I. apply in_map_iff in I as (o' & <- & I).
      rewrite map_length. auto.
    + intros l i Hlm Hip. destruct So as [A B].
      pose proof (map_nth (map (fun _ : Qc => 0%Qc)) outs [] l) as En. cbn [map] in En. rewrite En.
      destruct (Nat.lt_ge_cases i (length (nth l outs []))).
      * exact (map_nth (fun _ : Qc => 0%Qc) (nth l outs []) 0%Qc i).
      * rewrite nth_overflow by (rewrite map_length; lia). reflexivity.
  - destruct (rows_loop_ok period now m (r :: rows) xs 0 ins outs F ltac:(lia) Hi So) as (rows' & o & E & F' & S' & V).
    unfold process_audio. rewrite E. exists rows'. split; [|exact F'].
    f_equal. f_equal. unfold spec_block. apply shaped_eq; [exact S'|].
    intros l i Hlm Hip. rewrite V by (try discriminate; assumption). cbn [Nat.eqb skipn]. ring.
Qed.

(** *** Updates *)
Lemma tick_now x now s d g : t_next x = Some (s, d, g) -> s = now -> tick x now = Trajectory s d (gains_at x s) g None.
Proof. intros E ->. unfold tick. rewrite E. now rewrite Nat.eqb_refl. Qed.
Lemma tick_later x now s d g : t_next x = Some (s, d, g) -> s <> now -> tick x now = x.
Proof. intros E N. unfold tick. rewrite E. destruct (Nat.eqb_spec s now); [contradiction|reflexivity]. Qed.

Lemma blend_same (a : Qc) l : map (fun x : Qc * Qc => (a * snd x + (1 - a) * fst x)%Qc) (combine l l) = l.
Proof. induction l as [|b l IH]; cbn; [reflexivity|]. rewrite IH. f_equal. ring. Qed.
Lemma blend_zero (p t : list Qc) : length p = length t ->
  map (fun x : Qc * Qc => (0 * snd x + (1 - 0) * fst x)%Qc) (combine p t) = p.
Proof. intros E. apply combine_left; [|exact E]. intros x. ring. Qed.
Lemma ratio_self cur t : ratio cur cur t = 0%Qc.
Proof. unfold ratio. destruct t; [|reflexivity]. rewrite Nat.sub_diag, nq_0. unfold Qcdiv. ring. Qed.

Ltac fields := cbn [prevT targT prevG targG pendT pendD pendG t_start t_dur t_from t_to t_next tadd tlt tle] in *.

Lemma update_actual m r x now s d g :
  related m r x now -> now <= s -> length g = m ->
  exists r', update_transition r now (Some s) (Some d) g = Ok r' /\ related m r' (actual x now (s, d, g)) now.
Proof.
  intros [Lp Lt Lpd Lf Hp Ht Ho Hd Hn Hto Hph] Hs Lg. unfold update_transition, actual.
  assert (Lto : length (t_to x) = m) by congruence.
  destruct (Nat.ltb_spec s now); [lia|]. rewrite Lt, Lg.
  destruct (Nat.ltb_spec m m); [lia|].
  assert (Fg : firstn m g = g) by (rewrite <- Lg; apply firstn_all). rewrite Fg.
  destruct (Nat.eqb_spec s now) as [E|N].
  - subst s. destruct d as [|d].
    + eexists; split; [reflexivity|].
      constructor; fields; try assumption; try congruence; try lia; try exact I; try reflexivity.
      * destruct (now <? t_end x); assumption.
      * left. split; [reflexivity|]. unfold t_end; cbn. lia.
    + eexists; split; [reflexivity|]. rewrite ratio_self, blend_zero by congruence.
      constructor; fields; try assumption; try congruence; try lia; try exact I; try reflexivity.
      * destruct (now <? t_end x); assumption.
      * right. repeat split; try lia.
        destruct Hph as [[E1 E2]|(E1 & E2 & E3 & E4)].
        -- destruct (Nat.ltb_spec now (t_end x)); [lia|exact E1].
        -- rewrite E3 in Ht. cbn in Ht. destruct (Nat.ltb_spec now (t_end x)); [exact E1|lia].
  - destruct (before s (targT r)) eqn:Eb.
    + apply before_true in Eb. eexists; split; [reflexivity|].
      destruct Hph as [[E1 E2]|(E1 & E2 & E3 & E4)].
      * destruct (Nat.ltb_spec now (t_end x)); [lia|]. rewrite andb_false_r.
        rewrite E1, Hto, blend_same.
        constructor; fields; try assumption; try congruence; try lia; try reflexivity.
        left. split; [reflexivity|]. exact E2.
      * rewrite E3 in Eb, Ht. cbn in Eb, Ht.
        destruct (Nat.ltb_spec now (t_end x)); [|lia]. destruct (Nat.ltb_spec s (t_end x)); [|lia]. cbn [andb].
        assert (Eq : map (fun x0 : Qc * Qc => (ratio now (prevT r) (targT r) * snd x0 + (1 - ratio now (prevT r) (targT r)) * fst x0)%Qc)
                         (combine (prevG r) (targG r)) = gains_at x now).
        { rewrite E1, Hto, E2, E3. unfold gains_at. apply map_ext. intros p.
          unfold progress. destruct (Nat.leb_spec (t_end x) now); [lia|].
          unfold ratio. replace (t_end x - t_start x) with (t_dur x) by (unfold t_end; lia). ring. }
        rewrite Eq.
        constructor; fields; try assumption; try congruence; try lia; try reflexivity.
        -- now apply gains_at_length.
        -- right. unfold t_end; cbn. repeat split; try assumption; try lia. f_equal. lia.
    + eexists; split; [reflexivity|].
      assert (Es : tle (targT r) (Some s)).
      { destruct (targT r) as [t|]; cbn in *; [|discriminate]. apply Nat.ltb_ge in Eb. exact Eb. }
      assert (Ea : (s <? t_end x) && (now <? t_end x) = false).
      { destruct Hph as [[E1 E2]|(E1 & E2 & E3 & E4)].
        - destruct (Nat.ltb_spec now (t_end x)); [lia|]. apply andb_false_r.
        - rewrite E3 in Es. cbn in Es. destruct (Nat.ltb_spec s (t_end x)); [lia|reflexivity]. }
      rewrite Ea. constructor; fields; unfold store; fields; try assumption; try congruence; try lia; try reflexivity.
Qed.

Lemma update_documented m r x now s d g :
  related m r x now -> now <= s -> length g = m -> fits x now (s, d, g) ->
  exists r', update_transition r now (Some s) (Some d) g = Ok r' /\ related m r' (documented x now (s, d, g)) now.
Proof.
  intros R Hs Lg Hf. destruct (update_actual m r x now s d g R Hs Lg) as (r' & E & R').
  exists r'. split; [exact E|]. cbn in Hf.
  assert (Lto : length (t_to x) = m) by (rewrite <- (rel_to _ _ _ _ R); apply (rel_len_targ _ _ _ _ R)).
  pose proof (rel_len_from _ _ _ _ R) as Lf.
  unfold documented. destruct (Nat.eq_dec s now) as [E1|N].
  - rewrite (tick_now _ now s d g) by (reflexivity || assumption). subst s.
    unfold actual in R'. rewrite Nat.eqb_refl in R'.
    assert (Eg : gains_at (store x (now, d, g)) now = gains_at x now) by reflexivity. rewrite Eg.
    destruct d as [|d].
    + destruct R' as [A1 A2 A3 A4 A5 A6 A7 A8 A9 A10 A11].
      constructor; fields; try assumption; [now apply gains_at_length|].
      left. destruct A11 as [A11|(_ & _ & _ & A11)]; [exact A11|lia].
    + assert (Es : (if now <? t_end x then t_from x else t_to x) = gains_at x now).
      { destruct (Nat.ltb_spec now (t_end x)).
        - destruct Hf as [Hf|[Hf|[_ Hf]]]; [lia| |discriminate]. rewrite Hf.
          symmetry. apply (gains_at_start m); try assumption. unfold t_end in *. lia.
        - symmetry. now apply (gains_at_end m). }
      rewrite Es in R'. exact R'.
  - rewrite (tick_later _ now s d g) by (reflexivity || assumption).
    unfold actual in R'. destruct (Nat.eqb_spec s now); [contradiction|].
    assert (Ea : (s <? t_end x) && (now <? t_end x) = false).
    { destruct Hf as [Hf|[Hf|[Hf _]]]; [| |lia].
      - destruct (Nat.ltb_spec s (t_end x)); [lia|reflexivity].
      - pose proof (rel_phase _ _ _ _ R) as P. pose proof (rel_past _ _ _ _ R) as P2.
        destruct P as [[_ P]|(_ & P & _)].
        + destruct (Nat.ltb_spec now (t_end x)); [lia|]. apply andb_false_r.
        + lia. }
    rewrite Ea in R'. exact R'.
Qed.

(** *** Messages *)
Section Receive.
  Variable receive : trajectory -> nat -> nat * nat * list Qc -> trajectory.
  Variable allowed : trajectory -> nat -> nat * nat * list Qc -> Prop.
  Variable m : nat.
  Hypothesis receive_ok : forall r x now s d g,
    related m r x now -> now <= s -> length g = m -> allowed x now (s, d, g) ->
    exists r', update_transition r now (Some s) (Some d) g = Ok r' /\ related m r' (receive x now (s, d, g)) now.

  Local Notation receive_entry := (PanGainSpec.receive_entry receive).
  Local Notation allowed_entry := (PanGainSpec.allowed_entry allowed).
  Local Notation receive_message := (PanGainSpec.receive_message receive).
  Local Notation allowed_message := (PanGainSpec.allowed_message allowed m).
  Local Notation allowed_blocks := (PanGainSpec.allowed_blocks receive allowed m).
  Local Notation spec_blocks := (PanGainSpec.spec_blocks receive m).

  Lemma update_transitions_ok now n msg : well_formed n m msg -> forall rows xs idx,
    idx + length rows = n ->
    Forall2 (fun r x => related m r x now) rows xs ->
    (forall j x, nth_error xs j = Some x -> allowed_entry now x (entry msg (idx + j))) ->
    exists rows', update_transitions idx rows now msg = (rows', Ok tt)
      /\ Forall2 (fun r x => related m r x now) rows'
           (map (fun p => receive_entry now (snd p) (entry msg (fst p))) (combine (seq idx (length xs)) xs)).
  Proof.
    intros (W1 & W2 & W3 & W4 & W5).
    induction rows as [|r rows IH]; intros xs idx Hn F Ha.
    - inversion F; subst. exists []. split; [reflexivity|constructor].
    - inversion F as [|r0 x rows0 xs0 R F' E1 E2]; subst. cbn [update_transitions length seq combine map fst snd].
      destruct (nth_error (m_stamps msg) idx) as [s|] eqn:Es; [|apply nth_error_None in Es; cbn in Hn; lia].
      destruct (nth_error (m_durs msg) idx) as [d|] eqn:Ed; [|apply nth_error_None in Ed; cbn in Hn; lia].
      destruct (nth_error (m_gains msg) idx) as [g|] eqn:Eg; [|apply nth_error_None in Eg; cbn in Hn; lia].
      assert (Lg : length g = m) by (rewrite Forall_forall in W4; apply W4; eapply nth_error_In; eassumption).
      assert (U : exists r', update_transition r now s d g = Ok r' /\ related m r' (receive_entry now x (entry msg idx)) now).
      { pose proof (Ha 0 x eq_refl) as A. rewrite Nat.add_0_r in A.
        unfold entry in *. rewrite Es, Ed, Eg in *.
        destruct s as [s|]; [|exists r; split; [reflexivity|exact R]].
        destruct d as [d|]; [|exfalso; exact (W5 idx s Es Ed)].
        cbn [receive_entry allowed_entry fst] in *. destruct A as [A1 A2]. now apply receive_ok. }
      destruct U as (r' & E & R'). rewrite E.
      destruct (IH xs0 (S idx) ltac:(cbn in Hn; lia) F') as (rows' & Er & Fr).
      { intros j y Ey. replace (S idx + j) with (idx + S j) by lia. apply Ha. exact Ey. }
      rewrite Er. cbn [fst snd]. exists (r' :: rows'). split; [reflexivity|]. constructor; assumption.
  Qed.

  Lemma receive_message_length now arrived xs : length (receive_message now arrived xs) = length xs.
  Proof.
    destruct arrived; cbn; [|reflexivity]. rewrite map_length, combine_length, seq_length. lia.
  Qed.

  Lemma run_blocks_ok period : forall l rows xs now,
    Forall2 (fun r x => related m r x now) rows xs ->
    allowed_blocks period now xs l ->
    snd (run_blocks period (State rows None) now l) = map Ok (spec_blocks period now xs l).
  Proof.
    induction l as [|[[arrived ins] outs] l IH]; intros rows xs now F A; [reflexivity|].
    cbn [allowed_blocks] in A. destruct A as (A1 & A2 & A3 & A4 & A5 & A6).
    assert (Lr : length rows = length xs) by (clear - F; induction F; cbn; congruence).
    assert (U : exists rows', (match arrived with
             | Some msg => update_transitions 0 rows now msg
             | None => (rows, Ok tt) end) = (rows', Ok tt)
             /\ Forall2 (fun r x => related m r x now) rows' (receive_message now arrived xs)).
    { destruct arrived as [msg|]; [|exists rows; split; [reflexivity|exact F]].
      destruct A1 as [B1 B2]. rewrite <- Lr in B1.
      apply (update_transitions_ok now (length rows) msg B1 rows xs 0 eq_refl F). exact B2. }
    destruct U as (rows' & Eu & Fu).
    assert (Lr' : length rows' = length xs).
    { rewrite <- (receive_message_length now arrived xs). clear - Fu. induction Fu; cbn; congruence. }
    destruct (process_audio_ok period now m rows' _ ins outs Fu ltac:(congruence) A3 (conj A4 A5)) as (rows2 & Ep & F2).
    cbn [run_blocks spec_blocks map].
    assert (P : process period (State rows None) now arrived ins outs
                = (State rows2 None, Ok (spec_block period now m (receive_message now arrived xs) ins))).
    { unfold process. cbn [s_rows s_port].
      assert (E0 : match match arrived with Some m0 => Some m0 | None => None end with
                   | Some m0 => update_transitions 0 rows now m0 | None => (rows, Ok tt) end = (rows', Ok tt))
        by (destruct arrived; exact Eu).
      rewrite E0. cbn [fst snd]. rewrite Ep. reflexivity. }
    rewrite P. cbn [fst snd]. f_equal. apply IH; assumption.
  Qed.
End Receive.

(** *** Initial states *)
Lemma new_related n m init s : new n m init = Ok s ->
  s = State (s_rows s) None /\ length init = n /\ Forall (fun g => length g = m) init
  /\ Forall2 (fun r x => related m r x 0) (s_rows s) (map initial_trajectory init).
Proof.
  unfold new, new_rows. destruct (length init =? n) eqn:E1; cbn [andb negb bind]; [|discriminate].
  destruct (forallb _ init) eqn:E2; cbn [negb bind]; [|discriminate].
  intros E. apply Ok_inj in E. subst s. cbn [s_rows]. apply Nat.eqb_eq in E1.
  assert (F : Forall (fun g => length g = m) init).
  { rewrite forallb_forall in E2. apply Forall_forall. intros g I. now apply Nat.eqb_eq, E2. }
  repeat split; try assumption. clear - F. induction F as [|g l H F IH]; cbn [map]; constructor; [|exact IH].
  constructor; fields; try assumption; try congruence; try lia; try exact I; try reflexivity.
  left. split; [reflexivity|]. unfold t_end; cbn. lia.
Qed.

(** *** Messages with a time stamp in the past *)
Lemma update_transition_shape m r now s d g r' :
  length (targG r) = m -> length (prevG r) = m -> length g = m ->
  update_transition r now s d g = Ok r' -> length (targG r') = m /\ length (prevG r') = m.
Proof.
  intros L1 L2 L3. unfold update_transition. destruct s as [s|]; [|intros E; apply Ok_inj in E; subst; auto].
  destruct (s <? now); [discriminate|]. rewrite L1, L3. destruct (Nat.ltb_spec m m); [lia|].
  assert (Fg : length (firstn m g) = m) by (rewrite firstn_length; lia).
  destruct (s =? now); [destruct d as [[|d]|]|destruct (before s (targT r))];
    intros E; apply Ok_inj in E; subst r'; fields; split; try assumption;
    rewrite map_length, combine_length, L1, L2; lia.
Qed.

Lemma update_late m now msg : forall rows idx j,
  length (m_stamps msg) = length (m_durs msg) -> length (m_stamps msg) = length (m_gains msg) ->
  Forall (fun g => length g = m) (m_gains msg) ->
  idx + length rows = length (m_stamps msg) ->
  Forall (fun r => length (targG r) = m /\ length (prevG r) = m) rows ->
  idx <= j < idx + length rows -> late now msg j ->
  exists rows', update_transitions idx rows now msg = (rows', Throw RuntimeError)
    /\ length rows' = length rows /\ Forall (fun r => length (targG r) = m /\ length (prevG r) = m) rows'.
Proof.
  induction rows as [|r rows IH]; intros idx j L1 L2 Lg Ln F Hj Hl; [cbn in Hj; lia|].
  cbn [update_transitions].
  destruct (nth_error (m_stamps msg) idx) as [s|] eqn:Es; [|apply nth_error_None in Es; cbn in Ln; lia].
  destruct (nth_error (m_durs msg) idx) as [d|] eqn:Ed; [|apply nth_error_None in Ed; cbn in Ln; lia].
  destruct (nth_error (m_gains msg) idx) as [g|] eqn:Eg; [|apply nth_error_None in Eg; cbn in Ln; lia].
  assert (Lgg : length g = m) by (rewrite Forall_forall in Lg; apply Lg; eapply nth_error_In; eassumption).
  pose proof F as F0. inversion F as [|r0 rows0 [H1 H2] F']; subst r0 rows0.
  destruct (update_transition r now s d g) as [r'|e|] eqn:Eu.
  - assert (N : j <> idx).
    { intros E1. subst j. destruct Hl as (s' & E2 & E3). rewrite Es in E2. injection E2 as ->.
      unfold update_transition in Eu. apply Nat.ltb_lt in E3. rewrite E3 in Eu. discriminate. }
    destruct (IH (S idx) j L1 L2 Lg ltac:(cbn in Ln; lia) F' ltac:(cbn in Hj; lia) Hl) as (rows' & E & L & Fr).
    rewrite E. cbn [fst snd]. exists (r' :: rows'). split; [reflexivity|]. split; [cbn [length]; now rewrite L|].
    constructor; [|exact Fr]. exact (update_transition_shape m r now s d g r' H1 H2 Lgg Eu).
  - exists (r :: rows). split; [|split; [reflexivity|exact F0]]. f_equal. f_equal.
    unfold update_transition in Eu. destruct s as [s|]; [|discriminate].
    destruct (s <? now); [congruence|]. destruct (length g <? length (targG r)); [discriminate|].
    destruct (s =? now); [destruct d as [[|d']|]; discriminate|]. destruct (before s (targT r)); discriminate.
  - exfalso. unfold update_transition in Eu. destruct s as [s|]; [|discriminate].
    destruct (s <? now); [discriminate|]. rewrite Lgg, H1 in Eu. destruct (Nat.ltb_spec m m); [lia|].
    destruct (s =? now); [destruct d as [[|d']|]; discriminate|]. destruct (before s (targT r)); discriminate.
Qed.
