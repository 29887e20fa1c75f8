(** InterpolatingConvolverUniform: specification and refinement for every history of calls. *)
From Verif Require Import Base Memory CircularBufferModel CircularBufferProofs RingSum
  ConvolverModel ConvolverProofs RoutingProofs MultiConvolverProofs CrossfadeProofs InterpConvModel.
From Coq Require Import Ring.
Local Open Scope res_scope.

(** What the frequency domain has to satisfy in addition to [transform_ok]: the product
    distributes over the sum and commutes with real factors. *)
Record spectral_ok {T K : Type} (kadd kmul : K -> K -> K) (inj : T -> K) : Prop := {
  k_distr : forall x a c, kmul x (kadd a c) = kadd (kmul x a) (kmul x c);
  k_scale : forall w x a, kmul x (kmul (inj w) a) = kmul (inj w) (kmul x a) }.

Lemma fold_max_ge (l : list nat) : forall m n, n <= fold_left Nat.max l m <-> n <= m \/ exists x, In x l /\ n <= x.
Proof.
  induction l as [|y l IH]; intros m n; simpl.
  - split; [auto|]. intros [H|(x & [] & _)]; exact H.
  - rewrite IH. split.
    + intros [H|(x & H1 & H2)].
      * destruct (Nat.max_spec m y) as [[_ E]|[_ E]]; rewrite E in H; eauto.
      * eauto.
    + intros [H|(x & [->|H1] & H2)]; [left; lia|left; lia|right; eauto].
Qed.

Lemma map2_nth_error {A B C} (f : A -> B -> C) : forall l m i,
  nth_error (map2 f l m) i
  = match nth_error l i, nth_error m i with Some x, Some y => Some (f x y) | _, _ => None end.
Proof.
  unfold map2. induction l as [|x l IH]; intros m i; simpl.
  - destruct i; reflexivity.
  - destruct m as [|y m]; simpl; [destruct i as [|i]; simpl; [reflexivity|]; destruct (nth_error l i); reflexivity|].
    destruct i as [|i]; [reflexivity|]. simpl. apply IH.
Qed.
Lemma map2_map_r {A B C D} (f : A -> B -> C) (g : D -> B) (g' : C -> C) (h : A -> D -> C)
  (E : forall x y, f x (g y) = g' (h x y)) : forall l m, map2 f l (map g m) = map g' (map2 h l m).
Proof.
  unfold map2. induction l as [|x l IH]; intros [|y m]; simpl; try reflexivity. now rewrite E, IH.
Qed.
Lemma map2_distr {A B C} (f : A -> B -> C) (g : B -> B -> B) (g' : C -> C -> C)
  (E : forall x y z, f x (g y z) = g' (f x y) (f x z)) : forall l m n,
  map2 f l (map2 g m n) = map2 g' (map2 f l m) (map2 f l n).
Proof.
  unfold map2. induction l as [|x l IH]; intros [|y m] [|z n]; simpl; try reflexivity. now rewrite E, IH.
Qed.

Section Interp.
  Context {T : Type} (rO rI : T) (radd rmul rsub : T -> T -> T) (ropp : T -> T).
  Variable RT : ring_theory rO rI radd rmul rsub ropp (@eq T).
  Add Ring TRingI : RT.
  Local Notation "0" := rO. Local Notation "1" := rI.
  Local Infix "+" := radd. Local Infix "*" := rmul.
  Local Notation sum := (sum rO radd).
  Local Notation at_ l i := (nth i l 0).
  Local Notation conv := (conv rO radd rmul).
  Local Notation segment := (segment rO).
  Local Notation cyclic := (cyclic rO radd rmul).

  Context {K : Type} (kzero : K) (kadd kmul : K -> K -> K) (inj : T -> K)
          (fwd : list T -> list K) (inv : list K -> list T) (dsize : nat -> nat).
  Local Notation cross := (cross T K).
  Local Notation core := (core T K).
  Local Notation interp := (interp T K).
  Local Notation routing := (routing T).
  Local Notation iparam := (iparam T).
  Local Notation acts_as := (acts_as rO radd rmul kmul fwd inv dsize).

  (** *** Calls *)
  Inductive iop :=
  | ISetRouting (x : routing)
  | IRemoveRouting (i o : nat)
  | IInitRoutings (l : list routing)
  | ISetIr (ir : list T) (idx : nat)
  | IInitFilters (rows : list (list T)) (cols : nat)
  | IClearFilters
  | ISetInterpolant (p : iparam) (start : bool)
  | ISetInterpolants (l : list iparam) (start : bool)
  | IClearInterpolants
  | IProcess (input : list (list T)).
  Inductive ievent := IReturn (r : res unit) | IAudio (y : res (list (list T))).

  Definition i_settle (s : interp) (r : res interp) : interp * ievent :=
    match r with
    | Ok s' => (s', IReturn (Ok tt))
    | Throw e => (s, IReturn (Throw e))
    | UB => (s, IReturn UB)
    end.
  Definition interp_step (s : interp) (o : iop) : interp * ievent :=
    match o with
    | ISetRouting r => let '(e, s') := interp_set_routing s r in (s', IReturn e)
    | IRemoveRouting i o => (interp_remove_routing 0 s i o, IReturn (Ok tt))
    | IInitRoutings l => let '(e, s') := interp_init_routings s l in (s', IReturn e)
    | ISetIr ir idx => i_settle s (interp_set_ir 0 rmul fwd s ir idx)
    | IInitFilters rows cols => i_settle s (interp_init_filters 0 rmul kzero fwd dsize s rows cols)
    | IClearFilters => (interp_clear_filters kzero dsize s, IReturn (Ok tt))
    | ISetInterpolant p start => i_settle s (interp_set_interpolant kadd kmul inj s p start)
    | ISetInterpolants l start =>
        let '(e, s') := interp_set_interpolants kadd kmul inj s l start in (s', IReturn e)
    | IClearInterpolants => (interp_clear_interpolants kzero dsize s, IReturn (Ok tt))
    | IProcess input =>
        match interp_process 0 radd rmul kadd kmul inj fwd inv s input with
        | Ok (s', y) => (s', IAudio (Ok y))
        | Throw e => (s, IAudio (Throw e))
        | UB => (s, IAudio UB)
        end
    end.

  (** *** Specification *)
  (** the filters of the bank, and the crossfading between interpolated filters (C26) *)
  Record ispec := MkISpec { is_bank : nat -> list T; is_x : xspec (T := T) }.

  Section Sizes.
  (** [maxr], [maxf]: the constructor arguments maxRoutingPoints, maxFilterEntries *)
  Variables (ni no maxr maxf num maxlen b transition : nat) (up down : list T).

  (** tap [k] is the weighted sum of the taps [k] of the selected filters *)
  Definition interpolate (bank : nat -> list T) (p : iparam) : list T :=
    map (fun k => sum (length (p_weights p))
                    (fun j => at_ (p_weights p) j * at_ (bank (nth j (p_indices p) 0%nat)) k))
        (seq 0 maxlen).

  Definition set_bank (s : ispec) (bank : nat -> list T) : ispec := MkISpec bank (is_x s).
  Definition set_x (s : ispec) (x : xspec) : ispec := MkISpec (is_bank s) x.
  Definition silent (x : xspec (T := T)) : xspec :=
    MkXSpec (xs_map x) (fun _ => []) (fun _ => []) (xs_age x) (xs_signal x).

  Definition spec_interpolant (s : ispec) (p : iparam) (start : bool) : res ispec :=
    if maxf <=? p_id p then Throw OutOfRange
    else if negb (length (p_weights p) =? num) then Throw InvalidArgument
    else if existsb (fun i => maxf <=? i) (p_indices p) then Throw RuntimeError
    else Ok (set_x s (change (is_x s) (interpolate (is_bank s) p) (p_id p) start)).
  Fixpoint spec_interpolants (s : ispec) (l : list iparam) (start : bool) : res unit * ispec :=
    match l with
    | [] => (Ok tt, s)
    | p :: rest =>
        match spec_interpolant s p start with
        | Ok s' => spec_interpolants s' rest start
        | Throw e => (Throw e, s)
        | UB => (UB, s)
        end
    end.

  (** the part the crossfading specification takes care of *)
  Definition as_cross (o : iop) : option (xop (T := T) (K := K)) :=
    match o with
    | ISetRouting r => Some (XSetRouting r)
    | IRemoveRouting i o => Some (XRemoveRouting i o)
    | IInitRoutings l => Some (XInitRoutings l)
    | IProcess input => Some (XProcess input)
    | _ => None
    end.
  Definition as_ievent (e : xevent (T := T)) : ievent :=
    match e with XReturn r => IReturn r | XAudio y => IAudio y end.

  Definition ispec_step (s : ispec) (o : iop) : ispec * ievent :=
    match o with
    | ISetIr ir idx =>
        if (idx <? maxf) && (length ir <=? maxlen)
        then (set_bank s (fun f => if f =? idx then ir else is_bank s f), IReturn (Ok tt))
        else (s, IReturn (Throw InvalidArgument))
    | IInitFilters rows cols =>
        if (length rows <=? maxf) && (cols <=? maxlen)
        then (set_bank s (fun f => nth f rows []), IReturn (Ok tt))
        else (s, IReturn (Throw InvalidArgument))
    | IClearFilters => (MkISpec (fun _ => []) (silent (is_x s)), IReturn (Ok tt))
    | IClearInterpolants => (set_x s (silent (is_x s)), IReturn (Ok tt))
    | ISetInterpolant p start =>
        match spec_interpolant s p start with
        | Ok s' => (s', IReturn (Ok tt))
        | Throw e => (s, IReturn (Throw e))
        | UB => (s, IReturn UB)
        end
    | ISetInterpolants l start => let '(e, s') := spec_interpolants s l start in (s', IReturn e)
    | _ =>
        match as_cross o with
        | Some x =>
            let '(x', e) := xspec_step rO rI radd rmul ni no maxf maxr maxlen b up down (is_x s) x in
            (set_x s x', as_ievent e)
        | None => (s, IReturn UB)
        end
    end.

  (** Parameters are those the class InterpolationParameter can hold; the id of an accepted
      interpolant has a slot (the class does not check this unless
      maxFilterEntries <= maxRoutingPoints, see C69_id_check_refuted). *)
  Definition param_ok (p : iparam) : Prop :=
    length (p_indices p) = length (p_weights p) /\ (p_id p < maxf -> p_id p < maxr).
  Definition iop_ok (o : iop) : Prop :=
    match o with
    | ISetRouting x => r_filter x < maxr
    | IInitRoutings l => Forall (fun x => r_filter x < maxr) l
    | IInitFilters rows cols => Forall (fun r => length r = cols) rows
    | ISetInterpolant p _ => param_ok p
    | ISetInterpolants l _ => Forall param_ok l
    | IProcess input => length input = ni /\ Forall (fun x => length x = b) input
    | _ => True
    end.

  (** *** Refinement *)
  Variable cst : T.
  Hypothesis TO : transform_ok rO radd rmul kzero kadd kmul inj fwd inv dsize b cst.
  Hypothesis SP : spectral_ok kadd kmul inj.
  Hypothesis Lup : length up = transition.
  Hypothesis Ldown : length down = transition.
  Hypothesis bpos : 0 < b.
  Hypothesis numpos : 0 < num.
  Let parts := number_of_partitions maxlen b.
  Local Notation xrel := (xrel rO rI radd rmul kmul fwd inv dsize ni no maxf maxr maxlen b transition up down cst).

  Record irel (s : interp) (t : ispec) : Prop := {
    ir_x : xrel (i_x s) (is_x t);
    ir_len : length (i_bank s) = maxf;
    ir_bank : forall f h, nth_error (i_bank s) f = Some h -> acts_as b parts h (is_bank t f);
    ir_short : forall f, length (is_bank t f) <= maxlen;
    ir_num : i_num s = num }.

  Lemma maxlen_parts : maxlen <= parts * b.
  Proof.
    unfold parts, number_of_partitions.
    assert (Q := Nat.div_mod (maxlen + b - 1) b ltac:(lia)).
    assert (R := Nat.mod_upper_bound (maxlen + b - 1) b ltac:(lia)). nia.
  Qed.

  (** ** Interpolated filters *)
  Lemma seg_len ir p : length (segment b ir p) = (2 * b)%nat.
  Proof. exact (segment_length rO rI kzero kadd kmul inj fwd inv dsize b ir p). Qed.
  Lemma seg_nth ir p m : at_ (segment b ir p) m = if m <? b then at_ ir (p * b + m)%nat else 0.
  Proof. exact (segment_nth rO rI kzero kadd kmul inj fwd inv dsize b ir p m). Qed.
  Lemma segment_ext ir ir' p : (forall k, at_ ir k = at_ ir' k) -> segment b ir p = segment b ir' p.
  Proof.
    intros E. apply (list_ext 0); [now rewrite !seg_len|].
    intros i _. rewrite !seg_nth. now rewrite E.
  Qed.
  Lemma acts_ext spec ir ir' : acts_as b parts spec ir -> length ir' <= parts * b ->
    (forall k, at_ ir k = at_ ir' k) -> acts_as b parts spec ir'.
  Proof.
    intros (A & B & D) L E. split; [exact A|]. split; [exact L|].
    intros p Hp. destruct (D p Hp) as (h & E1 & E2 & E3). exists h. split; [exact E1|]. split; [exact E2|].
    intros x Lx. rewrite E3 by exact Lx. f_equal. now apply segment_ext.
  Qed.
  Lemma cyclic_add n x h h' : length h = length h' ->
    cyclic n x (map2 radd h h') = map2 radd (cyclic n x h) (cyclic n x h').
  Proof.
    intros L. apply (list_ext 0).
    - rewrite map2_length by (unfold ConvolverProofs.cyclic; now rewrite !map_length).
      unfold ConvolverProofs.cyclic. now rewrite !map_length.
    - unfold ConvolverProofs.cyclic at 1. rewrite map_length, seq_length. intros i Hi.
      unfold ConvolverProofs.cyclic. rewrite map_seq_nth by exact Hi.
      rewrite (map2_nth _ 0 0) by (rewrite ?map_length, ?seq_length; auto).
      rewrite !map_seq_nth by exact Hi.
      rewrite <- (sum_add rO rI radd rmul rsub ropp RT). apply sum_ext. intros m _.
      destruct (lt_dec m (length h)) as [Lm|Lm].
      + rewrite (map2_nth _ 0 0) by lia. ring.
      + rewrite (nth_overflow (map2 _ _ _)) by (rewrite map2_length by exact L; lia).
        rewrite (nth_overflow h), (nth_overflow h') by lia. ring.
  Qed.

  Lemma scaled_acts w h ir : acts_as b parts h ir -> acts_as b parts (scaled kmul inj w h) (map (rmul w) ir).
  Proof.
    intros (A & B & D). split; [unfold scaled; now rewrite map_length|]. split; [now rewrite map_length|].
    intros p Hp. destruct (D p Hp) as (s & E1 & E2 & E3). exists (map (kmul (inj w)) s).
    split; [unfold scaled; now rewrite nth_error_map, E1|]. split; [now rewrite map_length|].
    intros x Lx.
    rewrite (map2_map_r _ _ (kmul (inj w)) kmul) by (intros; apply (k_scale _ _ _ SP)).
    rewrite (t_inv_scale _ _ _ _ _ _ _ _ _ _ _ _ TO)
      by (rewrite map2_length; rewrite (t_fwd_length _ _ _ _ _ _ _ _ _ _ _ _ TO) by exact Lx; congruence).
    rewrite E3 by exact Lx. rewrite <- (cyclic_scale rO rI radd rmul rsub ropp RT). f_equal.
    apply (list_ext 0); [now rewrite map_length, !seg_len|].
    intros i Hi. rewrite map_length, seg_len in Hi.
    rewrite (map_nth' (rmul w) 0) by (now rewrite seg_len). rewrite !seg_nth.
    destruct (i <? b); [|ring].
    destruct (lt_dec (p * b + i) (length ir)) as [L|L].
    - now rewrite (map_nth' (rmul w) 0) by exact L.
    - rewrite !nth_overflow by (rewrite ?map_length; lia). ring.
  Qed.

  Definition tap_sum (ir : list T) (w : T) (ir' : list T) : list T :=
    map (fun k => at_ ir k + w * at_ ir' k) (seq 0 maxlen).
  Lemma tap_sum_nth ir w ir' k : length ir <= maxlen -> length ir' <= maxlen ->
    at_ (tap_sum ir w ir') k = at_ ir k + w * at_ ir' k.
  Proof.
    intros L L'. destruct (lt_dec k maxlen) as [H|H].
    - unfold tap_sum. now rewrite map_seq_nth.
    - unfold tap_sum. rewrite !nth_overflow; rewrite ?map_length, ?seq_length; try lia. ring.
  Qed.
  Lemma add_scaled_acts w h acc ir ir' : acts_as b parts acc ir -> acts_as b parts h ir' ->
    length ir <= maxlen -> length ir' <= maxlen ->
    acts_as b parts (add_scaled kadd kmul inj w h acc) (tap_sum ir w ir').
  Proof.
    intros A H' L L'. assert (Sc := scaled_acts w h ir' H').
    destruct A as (A1 & A2 & A3), H' as (B1 & B2 & B3), Sc as (C1 & C2 & C3).
    split; [unfold add_scaled; rewrite map2_length; congruence|].
    split; [unfold tap_sum; rewrite map_length, seq_length; apply maxlen_parts|].
    intros p Hp. destruct (A3 p Hp) as (s & E1 & E2 & E3), (B3 p Hp) as (s' & F1 & F2 & F3),
      (C3 p Hp) as (s'' & G1 & G2 & G3).
    unfold scaled in G1. rewrite nth_error_map, F1 in G1. cbn [option_map] in G1. apply Some_inj in G1.
    exists (map2 kadd s s''). subst s''. split; [|split].
    - unfold add_scaled. rewrite map2_nth_error, E1, F1. now rewrite map2_scaled.
    - rewrite map2_length; congruence.
    - intros x Lx. assert (Lf := t_fwd_length _ _ _ _ _ _ _ _ _ _ _ _ TO x Lx).
      rewrite (map2_distr kmul kadd kadd) by (intros; apply (k_distr _ _ _ SP)).
      rewrite (t_inv_add _ _ _ _ _ _ _ _ _ _ _ _ TO) by (rewrite map2_length; congruence).
      rewrite E3, G3 by exact Lx. rewrite <- cyclic_add by (now rewrite !seg_len). f_equal.
      apply (list_ext 0); [rewrite map2_length; now rewrite !seg_len|].
      intros i Hi. rewrite map2_length, seg_len in Hi by (now rewrite !seg_len).
      rewrite (map2_nth _ 0 0) by (rewrite ?seg_len; auto). rewrite !seg_nth.
      destruct (i <? b); [|ring]. rewrite tap_sum_nth by assumption. f_equal.
      destruct (lt_dec (p * b + i) (length ir')) as [H|H].
      + now rewrite (map_nth' (rmul w) 0) by exact H.
      + rewrite !nth_overflow by (rewrite ?map_length; lia). ring.
  Qed.

  Lemma interpolate_length bank p : length (interpolate bank p) = maxlen.
  Proof. unfold interpolate. now rewrite map_length, seq_length. Qed.
  Lemma interpolate_nth bank p k : (forall f, length (bank f) <= maxlen) ->
    at_ (interpolate bank p) k
    = sum (length (p_weights p)) (fun j => at_ (p_weights p) j * at_ (bank (nth j (p_indices p) 0%nat)) k).
  Proof.
    intros L. destruct (lt_dec k maxlen) as [H|H].
    - unfold interpolate. now rewrite map_seq_nth.
    - rewrite nth_overflow by (rewrite interpolate_length; lia).
      symmetry. apply (sum_zero rO rI radd rmul rsub ropp RT). intros j _.
      rewrite (nth_overflow (bank _)) by (specialize (L (nth j (p_indices p) 0%nat)); lia). ring.
  Qed.

  Definition bank_ok (hs : list (list (list K))) (bank : nat -> list T) : Prop :=
    length hs = maxf /\ (forall f h, nth_error hs f = Some h -> acts_as b parts h (bank f))
    /\ (forall f, length (bank f) <= maxlen).

  Lemma mix_rest_ok hs bank p : bank_ok hs bank -> length (p_indices p) = length (p_weights p) ->
    Forall (fun i => i < maxf) (p_indices p) ->
    forall todo i acc ir, (i + todo)%nat = length (p_weights p) ->
    acts_as b parts acc ir -> length ir <= maxlen ->
    exists h ir', mix_rest kadd kmul inj hs p todo i acc = Ok h /\ acts_as b parts h ir' /\ length ir' <= maxlen
      /\ forall k, at_ ir' k = at_ ir k
           + sum todo (fun j => at_ (p_weights p) (i + j)%nat * at_ (bank (nth (i + j) (p_indices p) 0%nat)) k).
  Proof.
    intros (B1 & B2 & B3) Lp Fp. induction todo as [|todo IH]; intros i acc ir Li A La; cbn [mix_rest].
    - exists acc, ir. split; [reflexivity|]. split; [exact A|]. split; [exact La|]. intros k. simpl. ring.
    - destruct (nth_error_lt (p_weights p) i) as [w Ew]; [lia|].
      destruct (nth_error_lt (p_indices p) i) as [x Ex]; [lia|].
      assert (Hx : x < maxf) by (rewrite Forall_forall in Fp; apply Fp; eapply nth_error_In; exact Ex).
      destruct (nth_error_lt hs x) as [h Eh]; [lia|].
      unfold param_weight, param_index. rewrite Ew, Ex. cbn [bind]. rewrite (get_ok _ _ _ Eh). cbn [bind].
      destruct (IH (S i) (add_scaled kadd kmul inj w h acc) (tap_sum ir w (bank x))) as (h' & ir' & E & A' & L' & N).
      + lia.
      + apply add_scaled_acts; auto.
      + unfold tap_sum. now rewrite map_length, seq_length.
      + exists h', ir'. split; [exact E|]. split; [exact A'|]. split; [exact L'|]. intros k.
        rewrite N, tap_sum_nth by auto. rewrite (sum_first rO rI radd rmul rsub ropp RT).
        rewrite Nat.add_0_r, (nth_error_nth _ _ _ Ew), (nth_error_nth _ _ _ Ex).
        rewrite (sum_ext rO radd todo (fun i0 => at_ (p_weights p) (i + S i0)%nat * at_ (bank (nth (i + S i0) (p_indices p) 0%nat)) k)
          (fun j => at_ (p_weights p) (S i + j)%nat * at_ (bank (nth (S i + j) (p_indices p) 0%nat)) k)).
        2:{ intros j _. now rewrite Nat.add_succ_r. }
        ring.
  Qed.
  Lemma mixed_ok hs bank p : bank_ok hs bank -> length (p_indices p) = length (p_weights p) ->
    Forall (fun i => i < maxf) (p_indices p) -> 0 < length (p_weights p) ->
    exists h, mixed kadd kmul inj hs p (length (p_weights p)) = Ok h /\ acts_as b parts h (interpolate bank p).
  Proof.
    intros B Lp Fp Pp. assert (B' := B). destruct B' as (B1 & B2 & B3). unfold mixed.
    destruct (nth_error_lt (p_weights p) 0) as [w Ew]; [lia|].
    destruct (nth_error_lt (p_indices p) 0) as [x Ex]; [lia|].
    assert (Hx : x < maxf) by (rewrite Forall_forall in Fp; apply Fp; eapply nth_error_In; exact Ex).
    destruct (nth_error_lt hs x) as [h Eh]; [lia|].
    unfold param_weight, param_index. rewrite Ew, Ex. cbn [bind]. rewrite (get_ok _ _ _ Eh). cbn [bind].
    destruct (mix_rest_ok hs bank p B Lp Fp (length (p_weights p) - 1) 1 (scaled kmul inj w h) (map (rmul w) (bank x)))
      as (h' & ir' & E & A & L & N).
    - lia.
    - apply scaled_acts. now apply B2.
    - now rewrite map_length.
    - exists h'. split; [exact E|]. eapply acts_ext; [exact A| |].
      + rewrite interpolate_length. apply maxlen_parts.
      + intros k. rewrite N, interpolate_nth by exact B3.
        replace (length (p_weights p)) with (S (length (p_weights p) - 1)) at 2 by lia.
        rewrite (sum_first rO rI radd rmul rsub ropp RT). cbn [Nat.add]. f_equal.
        rewrite (nth_error_nth _ _ _ Ew), (nth_error_nth _ _ _ Ex).
        destruct (lt_dec k (length (bank x))) as [H|H].
        * now rewrite (map_nth' (rmul w) 0) by exact H.
        * rewrite !nth_overflow by (rewrite ?map_length; lia). ring.
  Qed.

  (** Convolving with the interpolated filter is the weighted sum of the convolutions. *)
  Lemma conv_pad h xs n m : length h <= m ->
    conv h xs n = sum m (fun k => if k <=? n then at_ h k * at_ xs (n - k)%nat else 0).
  Proof.
    intros L. unfold ConvolverProofs.conv. symmetry. apply (sum_cut rO rI radd rmul rsub ropp RT); [exact L|].
    intros i Hi. rewrite (nth_overflow h) by lia. destruct (i <=? n); [ring|reflexivity].
  Qed.
  Lemma conv_interpolate bank p xs n : (forall f, length (bank f) <= maxlen) ->
    conv (interpolate bank p) xs n
    = sum (length (p_weights p)) (fun j => at_ (p_weights p) j * conv (bank (nth j (p_indices p) 0%nat)) xs n).
  Proof.
    intros L. rewrite (conv_pad _ _ _ maxlen) by (now rewrite interpolate_length).
    rewrite (sum_ext rO radd (length (p_weights p)) _
      (fun j => sum maxlen (fun k => at_ (p_weights p) j *
         (if k <=? n then at_ (bank (nth j (p_indices p) 0%nat)) k * at_ xs (n - k)%nat else 0)))).
    2:{ intros j _. rewrite (conv_pad _ _ _ maxlen) by apply L. symmetry. apply (sum_scale rO rI radd rmul rsub ropp RT). }
    rewrite (sum_swap rO rI radd rmul rsub ropp RT). apply sum_ext. intros k Hk.
    rewrite interpolate_nth by exact L. destruct (k <=? n).
    - rewrite <- (sum_scale_r rO rI radd rmul rsub ropp RT). apply sum_ext. intros j _. ring.
    - symmetry. apply (sum_zero rO rI radd rmul rsub ropp RT). intros j _. ring.
  Qed.

  (** ** The operations *)
  Lemma irel_bank s t : irel s t -> bank_ok (i_bank s) (is_bank t).
  Proof. intros [? ? ? ? ?]. split; [assumption|]. split; assumption. Qed.

  Lemma set_interpolant_rel s t p start : irel s t -> param_ok p ->
    match spec_interpolant t p start with
    | Ok t' => exists s', interp_set_interpolant kadd kmul inj s p start = Ok s' /\ irel s' t'
    | Throw e => interp_set_interpolant kadd kmul inj s p start = Throw e
    | UB => False
    end.
  Proof.
    intros R [Lp Ip]. assert (B := irel_bank s t R). destruct R as [Rx Rl Rb Rs Rn].
    unfold spec_interpolant, interp_set_interpolant. assert (Rx' := Rx). destruct Rx'.
    rewrite y_max, Rn, Rl. destruct (Nat.leb_spec maxf (p_id p)) as [H|H]; [reflexivity|].
    destruct (Nat.eqb_spec (length (p_weights p)) num) as [E|E]; cbn [negb]; [|reflexivity].
    destruct (p_indices p) as [|i0 rest] eqn:Ei; [simpl in Lp; lia|].
    assert (M : (maxf <=? fold_left Nat.max rest i0) = existsb (fun i => maxf <=? i) (i0 :: rest)).
    { apply eq_true_iff_eq. rewrite Nat.leb_le, existsb_exists, fold_max_ge. split.
      - intros [Q|(x & Q1 & Q2)]; [exists i0|exists x]; rewrite Nat.leb_le; simpl; auto.
      - intros (x & [->|Q1] & Q2); rewrite Nat.leb_le in Q2; eauto. }
    rewrite M. destruct (existsb _ _) eqn:Ex; [reflexivity|].
    assert (Fp : Forall (fun i => i < maxf) (p_indices p)).
    { rewrite Ei. apply Forall_forall. intros i Hi. apply Nat.nle_gt. intros Q.
      assert (existsb (fun i => maxf <=? i) (i0 :: rest) = true); [|congruence].
      apply existsb_exists. exists i. split; [exact Hi|]. now apply Nat.leb_le. }
    rewrite <- Ei in Lp. destruct (mixed_ok (i_bank s) (is_bank t) p B Lp Fp ltac:(lia)) as (h & Eh & Ah).
    rewrite E in Eh. rewrite Eh. cbn [bind].
    assert (X := xstep_rel rO rI radd rmul rsub ropp RT kzero kadd kmul inj fwd inv dsize ni no maxf maxr maxlen b
              transition up down cst TO Lup Ldown bpos (i_x s) (is_x t)
              (XSetFilter h (interpolate (is_bank t) p) (p_id p) start) Rx (conj (Ip H) Ah)).
    cbn [cross_step xspec_step] in X. destruct X as [X1 X2].
    destruct (cross_set_filter (i_x s) h (p_id p) start) as [x'|e|]; cbn [x_settle fst snd] in X1, X2;
      [|discriminate|discriminate].
    cbn [bind]. eexists. split; [reflexivity|]. constructor; simpl; auto.
  Qed.
  Lemma set_interpolants_rel start : forall l s t, irel s t -> Forall param_ok l ->
    exists s', interp_set_interpolants kadd kmul inj s l start = (fst (spec_interpolants t l start), s')
      /\ irel s' (snd (spec_interpolants t l start)).
  Proof.
    induction l as [|p l IH]; intros s t R F; cbn [interp_set_interpolants spec_interpolants].
    - exists s. split; [reflexivity|exact R].
    - assert (F1 := Forall_inv F). assert (F2 := Forall_inv_tail F).
      assert (X := set_interpolant_rel s t p start R F1).
      destruct (spec_interpolant t p start) as [t'|e|]; [| |destruct X].
      + destruct X as (s' & E & R'). rewrite E. now apply IH.
      + rewrite X. exists s. split; [reflexivity|exact R].
  Qed.

  Lemma xrel_core x t : xrel x t -> exists F, ConvolverProofs.core_inv rO radd rmul kmul fwd inv dsize (x_core x) (2 * maxr) (xs_signal t) F.
  Proof. intros [(F & V & _)]. now exists F. Qed.

  Lemma set_ir_rel s t ir idx : irel s t ->
    if (idx <? maxf) && (length ir <=? maxlen)
    then exists s', interp_set_ir 0 rmul fwd s ir idx = Ok s'
           /\ irel s' (set_bank t (fun f => if f =? idx then ir else is_bank t f))
    else interp_set_ir 0 rmul fwd s ir idx = Throw InvalidArgument.
  Proof.
    intros [Rx Rl Rb Rs Rn]. assert (Rx' := Rx). destruct Rx'. unfold interp_set_ir. rewrite Rl, y_maxlen.
    destruct (Nat.leb_spec maxf idx), (Nat.ltb_spec idx maxf); try lia; [reflexivity|]. cbn [andb].
    destruct (Nat.ltb_spec maxlen (length ir)), (Nat.leb_spec (length ir) maxlen); try lia; [reflexivity|].
    assert (X := transform_ir_ok rO rI radd rmul rsub ropp RT kzero kadd kmul inj fwd inv dsize b cst TO
                   (x_core (i_x s)) ir y_block y_scale).
    rewrite y_parts, y_maxlen in X. specialize (X maxlen_parts).
    destruct (transform_ir 0 rmul fwd (x_core (i_x s)) ir) as [h|e|]; [|lia|destruct X].
    destruct X as [_ A]. cbn [bind]. eexists. split; [reflexivity|]. constructor; simpl; auto.
    - now rewrite set_nth_length.
    - intros f h' Hf. rewrite set_nth_error in Hf. rewrite Rl in Hf.
      destruct (Nat.eqb_spec f idx) as [E1|N]; simpl in Hf; [|now apply Rb].
      destruct (Nat.ltb_spec idx maxf); [|lia]. apply Some_inj in Hf. subst h'. exact A.
    - intros f. destruct (f =? idx); auto.
  Qed.

  Lemma transform_rows_ok (c : core) : c_block c = b -> c_scale c * cst = 1 -> c_parts c = parts -> c_maxlen c = maxlen ->
    forall rows, Forall (fun r => length r <= maxlen) rows ->
    exists hs, transform_rows 0 rmul fwd c rows = Ok hs /\ length hs = length rows
      /\ forall f h, nth_error hs f = Some h -> acts_as b parts h (nth f rows []).
  Proof.
    intros Eb Es Ep Em. induction rows as [|ir rows IH]; intros Fr; cbn [transform_rows].
    - exists []. split; [reflexivity|]. split; [reflexivity|]. intros [|f] h Hf; discriminate.
    - assert (F1 := Forall_inv Fr). assert (F2 := Forall_inv_tail Fr).
      cbv beta in F1.
      assert (X := transform_ir_ok rO rI radd rmul rsub ropp RT kzero kadd kmul inj fwd inv dsize b cst TO c ir Eb Es).
      rewrite Ep, Em in X. specialize (X maxlen_parts).
      destruct (transform_ir 0 rmul fwd c ir) as [h|e|]; [|lia|destruct X]. cbn [bind].
      destruct (IH F2) as (hs & E & L & N). rewrite E. cbn [bind]. eexists. split; [reflexivity|].
      split; [simpl; now rewrite L|]. intros [|f] h' Hf; simpl in Hf; [apply Some_inj in Hf; subst h'; apply X|].
      now apply N.
  Qed.
  Lemma blank_acts (c : core) : c_block c = b -> c_parts c = parts -> acts_as b parts (blank kzero dsize c) [].
  Proof.
    intros Eb Ep. unfold blank, zero_block. rewrite Eb, Ep.
    apply (zero_acts rO rI radd rmul rsub ropp RT kzero kadd kmul inj fwd inv dsize b cst TO).
  Qed.
  Lemma init_filters_rel s t rows cols : irel s t -> Forall (fun r => length r = cols) rows ->
    if (length rows <=? maxf) && (cols <=? maxlen)
    then exists s', interp_init_filters 0 rmul kzero fwd dsize s rows cols = Ok s'
           /\ irel s' (set_bank t (fun f => nth f rows []))
    else interp_init_filters 0 rmul kzero fwd dsize s rows cols = Throw InvalidArgument.
  Proof.
    intros [Rx Rl Rb Rs Rn] Fr. assert (Rx' := Rx). destruct Rx'. unfold interp_init_filters. rewrite Rl, y_maxlen.
    destruct (Nat.ltb_spec maxf (length rows)), (Nat.leb_spec (length rows) maxf); try lia; [reflexivity|]. cbn [andb].
    destruct (Nat.ltb_spec maxlen cols), (Nat.leb_spec cols maxlen); try lia; [reflexivity|].
    assert (Fr' : Forall (fun r => length r <= maxlen) rows).
    { eapply Forall_impl; [|exact Fr]. simpl. intros; lia. }
    destruct (transform_rows_ok (x_core (i_x s)) y_block y_scale y_parts y_maxlen rows Fr') as (hs & E & L & N).
    rewrite E. cbn [bind]. eexists. split; [reflexivity|]. constructor; simpl; auto.
    - rewrite app_length, repeat_length. lia.
    - intros f h Hf. destruct (lt_dec f (length hs)) as [H3|H3].
      + rewrite nth_error_app1 in Hf by exact H3. now apply N.
      + rewrite nth_error_app2 in Hf by lia. apply nth_error_In, repeat_spec in Hf. subst h.
        rewrite L in H3. rewrite nth_overflow by lia. now apply blank_acts.
    - intros f. destruct (lt_dec f (length rows)) as [H3|H3].
      + rewrite Forall_forall in Fr'. apply Fr'. now apply nth_In.
      + rewrite nth_overflow by lia. simpl. lia.
  Qed.

  Lemma clear_interpolants_rel s t : irel s t ->
    irel (interp_clear_interpolants kzero dsize s) (set_x t (silent (is_x t))).
  Proof.
    intros [Rx Rl Rb Rs Rn]. constructor; simpl; auto. assert (Rx' := Rx). destruct Rx'.
    constructor; simpl; auto. destruct y_core as (F & V & Sl).
    exists (fun _ => []). split.
    - apply (clear_filters_ok rO rI radd rmul rsub ropp RT kzero kadd kmul inj fwd inv dsize b cst TO _ _ _ F V y_block).
    - intros f Hf. cbn. destruct (Sl f Hf) as [(E & _)|(E & _)]; auto.
  Qed.
  Lemma clear_filters_rel s t : irel s t ->
    irel (interp_clear_filters kzero dsize s) (MkISpec (fun _ => []) (silent (is_x t))).
  Proof.
    intros [Rx Rl Rb Rs Rn].
    assert (R : irel (with_bank s (repeat (blank kzero dsize (x_core (i_x s))) (length (i_bank s)))) (set_bank t (fun _ => []))).
    { destruct Rx. constructor; simpl; auto.
      - constructor; auto.
      - now rewrite repeat_length.
      - intros f h Hf. apply nth_error_In, repeat_spec in Hf. subst h. now apply blank_acts.
      - intros; lia. }
    apply clear_interpolants_rel in R. exact R.
  Qed.

  Lemma cross_part s t x : irel s t ->
    xop_ok rO radd rmul kmul fwd inv dsize ni maxr b parts x ->
    irel (with_x s (fst (cross_step rO radd rmul kadd kmul inj fwd inv (i_x s) x)))
         (set_x t (fst (xspec_step rO rI radd rmul ni no maxf maxr maxlen b up down (is_x t) x)))
    /\ snd (cross_step rO radd rmul kadd kmul inj fwd inv (i_x s) x)
       = snd (xspec_step rO rI radd rmul ni no maxf maxr maxlen b up down (is_x t) x).
  Proof.
    intros [Rx Rl Rb Rs Rn] W.
    destruct (xstep_rel rO rI radd rmul rsub ropp RT kzero kadd kmul inj fwd inv dsize ni no maxf maxr maxlen b
              transition up down cst TO Lup Ldown bpos (i_x s) (is_x t) x Rx W) as [A E].
    split; [|exact E]. constructor; simpl; auto.
  Qed.

  Lemma istep_rel s t o : irel s t -> iop_ok o ->
    irel (fst (interp_step s o)) (fst (ispec_step t o)) /\ snd (interp_step s o) = snd (ispec_step t o).
  Proof.
    intros R W. destruct o as [x|i o|l|ir idx|rows cols| |p start|l start| |input]; cbn [interp_step ispec_step as_cross].
    - simpl in W. destruct (cross_part s t (XSetRouting x) R W) as [A E].
      cbn [cross_step] in A, E. unfold interp_set_routing. destruct (cross_set_routing (i_x s) x) as [e x'].
      destruct (xspec_step _ _ _ _ _ _ _ _ _ _ _ _ _ _) as [t' e']. cbn [fst snd] in *. subst e'. split; [exact A|reflexivity].
    - destruct (cross_part s t (XRemoveRouting i o) R I) as [A E].
      cbn [cross_step] in A, E. destruct (xspec_step _ _ _ _ _ _ _ _ _ _ _ _ _ _) as [t' e']. cbn [fst snd] in *. subst e'.
      split; [exact A|reflexivity].
    - simpl in W. destruct (cross_part s t (XInitRoutings l) R W) as [A E].
      cbn [cross_step] in A, E. unfold interp_init_routings.
      destruct (init_routings _ _ _ _ l) as [e x'].
      destruct (xspec_step _ _ _ _ _ _ _ _ _ _ _ _ _ _) as [t' e']. cbn [fst snd] in *. subst e'. split; [exact A|reflexivity].
    - assert (X := set_ir_rel s t ir idx R). destruct ((idx <? maxf) && (length ir <=? maxlen)).
      + destruct X as (s' & E & R'). rewrite E. split; [exact R'|reflexivity].
      + rewrite X. split; [exact R|reflexivity].
    - assert (X := init_filters_rel s t rows cols R W). destruct ((length rows <=? maxf) && (cols <=? maxlen)).
      + destruct X as (s' & E & R'). rewrite E. split; [exact R'|reflexivity].
      + rewrite X. split; [exact R|reflexivity].
    - split; [now apply clear_filters_rel|reflexivity].
    - assert (X := set_interpolant_rel s t p start R W). destruct (spec_interpolant t p start) as [t'|e|]; [| |destruct X].
      + destruct X as (s' & E & R'). rewrite E. split; [exact R'|reflexivity].
      + rewrite X. split; [exact R|reflexivity].
    - destruct (set_interpolants_rel start l s t R W) as (s' & E & R'). rewrite E.
      destruct (spec_interpolants t l start) as [e t']. cbn [fst snd] in *. split; [exact R'|reflexivity].
    - split; [now apply clear_interpolants_rel|reflexivity].
    - destruct (cross_part s t (XProcess input) R W) as [A E]. cbn [cross_step] in A, E. unfold interp_process.
      destruct (cross_process _ _ _ _ _ _ _ _ _ _) as [[x' y]|e|]; cbn [bind fst snd] in *;
        destruct (xspec_step _ _ _ _ _ _ _ _ _ _ _ _ _ _) as [t' e']; cbn [fst snd] in *; subst e'.
      + split; [exact A|reflexivity].
      + split; [|reflexivity]. destruct s; exact A.
      + split; [|reflexivity]. destruct s; exact A.
  Qed.

  Lemma irun_rel ops : forall s t, irel s t -> Forall iop_ok ops ->
    outputs interp_step s ops = outputs ispec_step t ops
    /\ irel (final interp_step s ops) (final ispec_step t ops).
  Proof.
    induction ops as [|o ops IH]; intros s t R W; [split; [reflexivity|exact R]|].
    assert (W1 := Forall_inv W). assert (W2 := Forall_inv_tail W). rewrite !outputs_cons, !final_cons.
    destruct (istep_rel s t o R W1) as [R' E]. rewrite E. destruct (IH _ _ R' W2) as [A B]. now rewrite A.
  Qed.

  (** *** The constructor *)
  Definition ispec_empty : ispec := MkISpec (fun _ => []) (xspec_init b transition []).
  (** what the constructor establishes: routings, then filters, then interpolants *)
  Definition ispec_new (routings : list routing) (initial : list iparam) (rows : list (list T)) (cols : nat) : res ispec :=
    match ispec_step ispec_empty (IInitRoutings routings) with
    | (t1, IReturn (Ok _)) =>
        match ispec_step t1 (IInitFilters rows cols) with
        | (t2, IReturn (Ok _)) =>
            match ispec_step t2 (ISetInterpolants initial false) with
            | (t3, IReturn (Ok _)) => Ok t3
            | (_, IReturn (Throw e)) => Throw e
            | _ => UB
            end
        | (_, IReturn (Throw e)) => Throw e
        | _ => UB
        end
    | (_, IReturn (Throw e)) => Throw e
    | _ => UB
    end.

  Lemma spec_sets_defined (l : list routing) : forall m, snd (spec_sets ni no maxf maxr m l) <> UB.
  Proof.
    induction l as [|x l IH]; intros m; cbn [spec_sets]; [discriminate|].
    destruct (fset_entry _ _ _ _ _ _) as [m'|]; [apply IH|discriminate].
  Qed.
  Lemma interpolants_defined start l : forall t, fst (spec_interpolants t l start) <> UB.
  Proof.
    induction l as [|p l IH]; intros t; cbn [spec_interpolants]; [discriminate|].
    unfold spec_interpolant. destruct (_ <=? _); [discriminate|]. destruct (negb _); [discriminate|].
    destruct (existsb _ _); [discriminate|]. apply IH.
  Qed.

  Lemma interp_new_rel al scale routings initial rows cols :
    0 < maxlen -> scale * cst = 1 ->
    Forall (fun x => r_filter x < maxr) routings -> Forall param_ok initial -> Forall (fun r => length r = cols) rows ->
    match ispec_new routings initial rows cols with
    | Ok t => exists s, interp_new 0 1 rmul kzero kadd kmul inj fwd dsize up down ni no b maxlen maxr maxf num transition
                 al scale routings initial rows cols = Ok s /\ irel s t
    | Throw e => interp_new 0 1 rmul kzero kadd kmul inj fwd dsize up down ni no b maxlen maxr maxf num transition
                 al scale routings initial rows cols = Throw e
    | UB => False
    end.
  Proof.
    intros Hm Es Wr Wi Wf.
    destruct (cross_make_rel rO rI radd rmul rsub ropp RT kzero kadd kmul inj fwd inv dsize ni no maxf maxr maxlen b
              transition up down cst TO Lup Ldown bpos al scale [] 0 Hm Es) as (x1 & E & R); try (simpl; lia).
    { constructor. }
    unfold interp_new. unfold cross_make in E. rewrite E.
    set (s0 := MkInterp x1 (repeat (blank kzero dsize (x_core x1)) maxf) num).
    assert (R0 : irel s0 ispec_empty).
    { destruct R. constructor; simpl; auto.
      - constructor; auto.
      - apply repeat_length.
      - intros f h Hf. apply nth_error_In, repeat_spec in Hf. subst h. now apply blank_acts.
      - intros; lia. }
    unfold ispec_new.
    destruct (istep_rel s0 ispec_empty (IInitRoutings routings) R0 Wr) as [R1 E1].
    assert (D : snd (ispec_step ispec_empty (IInitRoutings routings)) <> IReturn UB).
    { cbn [ispec_step as_cross xspec_step]. destruct (maxf <? length routings); [discriminate|].
      assert (N := spec_sets_defined routings fempty).
      destruct (spec_sets ni no maxf maxr fempty routings) as [m r]. cbn in *. intros Q. apply N.
      injection Q as Q. exact Q. }
    cbn [interp_step] in R1, E1. destruct (interp_init_routings s0 routings) as [r1 s1]. cbn [fst snd] in R1, E1.
    destruct (ispec_step ispec_empty (IInitRoutings routings)) as [t1 e1]. cbn [fst snd] in R1, E1, D. subst e1.
    destruct r1 as [[]|e|]; [|reflexivity|now apply D]. clear D.
    assert (X := init_filters_rel s1 t1 rows cols R1 Wf). cbn [ispec_step].
    destruct ((length rows <=? maxf) && (cols <=? maxlen)); [|now rewrite X].
    destruct X as (s2 & E2 & R2). rewrite E2. cbn [bind].
    destruct (set_interpolants_rel false initial s2 _ R2 Wi) as (s3 & E3 & R3). rewrite E3.
    assert (N := interpolants_defined false initial (set_bank t1 (fun f => nth f rows []))).
    destruct (spec_interpolants _ initial false) as [[[]|e|] t3]; cbn [fst snd] in *.
    - exists s3. split; [reflexivity|exact R3].
    - reflexivity.
    - now apply N.
  Qed.

  (** *** The component *)
  (** messages the convolver accepts *)
  Definition filter_message_ok (m : nat * list T) : Prop :=
    fst m < maxf /\ 0 < length (snd m) <= maxlen.
  Definition interpolant_message_ok (p : iparam) : Prop :=
    p_id p < maxf /\ p_id p < maxr /\ length (p_weights p) = num /\ length (p_indices p) = num
    /\ Forall (fun i => i < maxf) (p_indices p).
  Definition message_ops (filters : list (nat * list T)) (interpolants : list iparam) : list iop :=
    map (fun m => ISetIr (snd m) (fst m)) filters ++ map (fun p => ISetInterpolant p true) interpolants.

  Lemma accepted_filter s t m : irel s t -> filter_message_ok m ->
    exists s', apply_filter_message 0 rmul fwd s m = Ok s' /\ fst (interp_step s (ISetIr (snd m) (fst m))) = s'
      /\ irel s' (fst (ispec_step t (ISetIr (snd m) (fst m)))).
  Proof.
    intros R [A B]. assert (X := set_ir_rel s t (snd m) (fst m) R).
    cbn [ispec_step interp_step]. destruct (Nat.ltb_spec (fst m) maxf); [|lia].
    destruct (Nat.leb_spec (length (snd m)) maxlen); [|lia]. cbn [andb] in *.
    destruct X as (s' & E & R'). exists s'. unfold apply_filter_message. rewrite E.
    split; [|split; [reflexivity|exact R']]. destruct (snd m); [simpl in B; lia|reflexivity].
  Qed.
  Lemma interpolant_message_param p : interpolant_message_ok p -> param_ok p.
  Proof. intros (A & B & C & D & _). split; [congruence|auto]. Qed.
  Lemma accepted_interpolant s t p : irel s t -> interpolant_message_ok p ->
    exists s', apply_interpolant_message kadd kmul inj s p = Ok s' /\ fst (interp_step s (ISetInterpolant p true)) = s'
      /\ irel s' (fst (ispec_step t (ISetInterpolant p true))).
  Proof.
    intros R W. assert (X := set_interpolant_rel s t p true R (interpolant_message_param p W)).
    destruct W as (A & B & C & D & F).
    assert (Es : exists t', spec_interpolant t p true = Ok t').
    { unfold spec_interpolant. destruct (Nat.leb_spec maxf (p_id p)); [lia|].
      rewrite C, Nat.eqb_refl. cbn [negb].
      assert (Ex : existsb (fun i => maxf <=? i) (p_indices p) = false).
      { apply not_true_is_false. intros Q. apply existsb_exists in Q as (i & Q1 & Q2).
        rewrite Forall_forall in F. specialize (F i Q1). rewrite Nat.leb_le in Q2. lia. }
      rewrite Ex. eauto. }
    destruct Es as [t' Es]. cbn [ispec_step interp_step]. rewrite Es in *. destruct X as (s' & E & R').
    exists s'. unfold apply_interpolant_message. rewrite E. auto.
  Qed.

  Lemma drain_ok {M} (apply : interp -> M -> res interp) (op : M -> iop) (ok : M -> Prop)
    (H : forall s t m, irel s t -> ok m ->
       exists s', apply s m = Ok s' /\ fst (interp_step s (op m)) = s' /\ irel s' (fst (ispec_step t (op m)))) :
    forall q fuel s t, irel s t -> Forall ok q -> length q < fuel ->
    exists s', drain apply fuel s q = Some (Ok s') /\ s' = final interp_step s (map op q)
      /\ irel s' (final ispec_step t (map op q)).
  Proof.
    induction q as [|m q IH]; intros [|fuel] s t R F L; simpl in L; try lia; cbn [drain map].
    - exists s. split; [reflexivity|]. split; [reflexivity|exact R].
    - assert (F1 := Forall_inv F). assert (F2 := Forall_inv_tail F).
      destruct (H s t m R F1) as (s' & E & E' & R'). rewrite E, !final_cons, E'.
      apply IH; [exact R'|exact F2|lia].
  Qed.

  Lemma node_ok fuel s t filters interpolants input : irel s t ->
    Forall filter_message_ok filters -> Forall interpolant_message_ok interpolants ->
    length input = ni -> Forall (fun x => length x = b) input ->
    length filters < fuel -> length interpolants < fuel ->
    exists s' y,
      node_process 0 radd rmul kadd kmul inj fwd inv fuel s filters interpolants input = Some (Ok (s', y))
      /\ let t1 := final ispec_step t (message_ops filters interpolants) in
         snd (ispec_step t1 (IProcess input)) = IAudio (Ok y)
         /\ irel s' (fst (ispec_step t1 (IProcess input))).
  Proof.
    intros R Wf Wi Li Lb Hf Hi. unfold node_process.
    destruct (drain_ok _ (fun m => ISetIr (snd m) (fst m)) _ accepted_filter filters fuel s t R Wf Hf)
      as (s1 & E1 & _ & R1). rewrite E1.
    destruct (drain_ok _ (fun p => ISetInterpolant p true) _ accepted_interpolant interpolants fuel s1 _ R1 Wi Hi)
      as (s2 & E2 & _ & R2). rewrite E2.
    destruct (istep_rel s2 _ (IProcess input) R2 (conj Li Lb)) as [R3 E3].
    cbn [interp_step] in R3, E3. unfold message_ops. rewrite final_app.
    destruct (interp_process 0 radd rmul kadd kmul inj fwd inv s2 input) as [[s3 y]|e|];
      cbn [fst snd] in R3, E3.
    - exists s3, y. split; [reflexivity|]. cbv zeta. split; [symmetry; exact E3|exact R3].
    - cbn [ispec_step as_cross xspec_step snd as_ievent] in E3. discriminate.
    - cbn [ispec_step as_cross xspec_step snd as_ievent] in E3. discriminate.
  Qed.
  End Sizes.
End Interp.

(** A message that is refused is never removed: the loop does not end. *)
Lemma drain_stuck {T K M} (apply : interp T K -> M -> res (interp T K)) s m e q : apply s m = Throw e ->
  forall fuel, drain apply fuel s (m :: q) = None.
Proof. intros E. induction fuel as [|fuel IH]; [reflexivity|]. cbn [drain]. rewrite E. exact IH. Qed.
