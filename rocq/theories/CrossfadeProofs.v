(** CrossfadingConvolverUniform: histories of calls, refinement of the specification. *)
From Verif Require Import Base Memory CircularBufferModel CircularBufferProofs RingSum
  ConvolverModel ConvolverProofs RoutingProofs MultiConvolverProofs.
From Coq Require Import Ring.
Local Open Scope res_scope.

(** A routing whose filter index is below [entries] passes the check against
    2 * entries as well. *)
Lemma set_routing_double {T} ni no nf max (t : list (routing T)) x : r_filter x < nf ->
  set_routing ni no (2 * nf) max t x = set_routing ni no nf max t x.
Proof.
  intros H. unfold set_routing.
  destruct (Nat.leb_spec (2 * nf) (r_filter x)); [lia|]. destruct (Nat.leb_spec nf (r_filter x)); [lia|]. reflexivity.
Qed.
Lemma set_routings_double {T} ni no nf max (l : list (routing T)) : forall t, Forall (fun x => r_filter x < nf) l ->
  set_routings ni no (2 * nf) max t l = set_routings ni no nf max t l.
Proof.
  induction l as [|x l IH]; intros t H; [reflexivity|]. inversion H as [|? ? A B]; subst. cbn [set_routings].
  rewrite set_routing_double by exact A. destruct (set_routing ni no nf max t x) as [[u|e|] t']; auto.
Qed.

Section Cross.
  Context {T : Type} (rO rI : T) (radd rmul rsub : T -> T -> T) (ropp : T -> T).
  Variable RT : ring_theory rO rI radd rmul rsub ropp (@eq T).
  Add Ring TRing6 : RT.
  Local Notation "0" := rO. Local Notation "1" := rI.
  Local Infix "+" := radd. Local Infix "*" := rmul.
  Local Notation sum := (sum rO radd).
  Local Notation at_ l i := (nth i l 0).
  Local Notation conv := (conv rO radd rmul).
  Local Notation conv_block := (conv_block rO radd rmul).

  Context {K : Type} (kzero : K) (kadd kmul : K -> K -> K) (inj : T -> K)
          (fwd : list T -> list K) (inv : list K -> list T) (dsize : nat -> nat).
  Local Notation cross := (cross T K).
  Local Notation core := (core T K).
  Local Notation routing := (routing T).
  Local Notation fmap := (@fmap T).
  Local Notation core_inv := (core_inv rO radd rmul kmul fwd inv dsize).
  Local Notation acts_as := (acts_as rO radd rmul kmul fwd inv dsize).

  (** *** Calls *)
  Inductive xop :=
  | XSetRouting (x : routing)
  | XRemoveRouting (i o : nat)
  | XInitRoutings (l : list routing)
  | XSetIr (ir : list T) (idx : nat) (start : bool)
  | XSetFilter (h : list (list K)) (ir : list T) (idx : nat) (start : bool)   (* [h] acts as [ir] *)
  | XProcess (input : list (list T)).
  Inductive xevent := XReturn (r : res unit) | XAudio (y : res (list (list T))).

  Definition x_with_table (x : cross) (t : list routing) : cross :=
    MkCross (x_core x) (x_outputs x) (x_max x) t (x_filters x) (x_blocks x)
      (x_current x) (x_ramp x) (x_up x) (x_down x).
  Definition x_settle (x : cross) (r : res cross) : cross * xevent :=
    match r with
    | Ok x' => (x', XReturn (Ok tt))
    | Throw e => (x, XReturn (Throw e))
    | UB => (x, XReturn UB)
    end.
  Definition cross_step (x : cross) (o : xop) : cross * xevent :=
    match o with
    | XSetRouting r => let '(e, x') := cross_set_routing x r in (x', XReturn e)
    | XRemoveRouting i o => (x_with_table x (snd (remove_routing 0 (x_table x) i o)), XReturn (Ok tt))
    | XInitRoutings l =>
        let '(e, t) := init_routings (c_inputs (x_core x)) (x_outputs x) (length (c_filters (x_core x)))
                         (x_max x) l in
        (x_with_table x t, XReturn e)
    | XSetIr ir idx start => x_settle x (cross_set_ir 0 rmul fwd x ir idx start)
    | XSetFilter h _ idx start => x_settle x (cross_set_filter x h idx start)
    | XProcess input =>
        match cross_process 0 radd rmul kadd kmul inj fwd inv x input with
        | Ok (x', y) => (x', XAudio (Ok y))
        | Throw e => (x, XAudio (Throw e))
        | UB => (x, XAudio UB)
        end
    end.

  (** *** Specification *)
  (** per filter index: the target filter, the filter it replaced, and the number of
      process() calls since the last transition was started *)
  Record xspec := MkXSpec {
    xs_map : fmap;
    xs_new : nat -> list T;
    xs_old : nat -> list T;
    xs_age : nat -> nat;
    xs_signal : nat -> list T }.

  Section Sizes.
  Variables (ni no max nf maxlen b transition : nat) (up down : list T).

  (** the weights, as functions of the number of samples since the start of the transition *)
  Definition weight_new (n : nat) : T := nth n up 1.
  Definition weight_old (n : nat) : T := nth n down 0.

  Definition faded (s : xspec) (k i f : nat) (g : T) : T :=
    let n := (length (xs_signal s i) - b + k)%nat in
    let p := (xs_age s f * b + k)%nat in
    weight_new p * (g * conv (xs_new s f) (xs_signal s i) n)
    + weight_old p * (g * conv (xs_old s f) (xs_signal s i) n).
  Definition xspec_sample (s : xspec) (o k : nat) : T :=
    sum ni (fun i => match xs_map s i o with Some (f, g) => faded s k i f g | None => 0 end).
  Definition xspec_block (s : xspec) : list (list T) :=
    map (fun o => map (xspec_sample s o) (seq 0 b)) (seq 0 no).

  Definition change (s : xspec) (ir : list T) (idx : nat) (start : bool) : xspec :=
    MkXSpec (xs_map s)
      (fun f => if f =? idx then ir else xs_new s f)
      (fun f => if f =? idx then xs_new s idx else xs_old s f)
      (fun f => if (f =? idx) && start then 0%nat else xs_age s f)
      (xs_signal s).
  Definition with_map (s : xspec) (m : fmap) : xspec :=
    MkXSpec m (xs_new s) (xs_old s) (xs_age s) (xs_signal s).

  Definition xspec_step (s : xspec) (op : xop) : xspec * xevent :=
    match op with
    | XSetRouting x =>
        match fset_entry ni no nf max (xs_map s) x with
        | Some m => (with_map s m, XReturn (Ok tt))
        | None => (s, XReturn (Throw InvalidArgument))
        end
    | XRemoveRouting i o => (with_map s (fset (xs_map s) i o None), XReturn (Ok tt))
    | XInitRoutings l =>
        let '(m, r) := if max <? length l then (fempty, Throw InvalidArgument)
                       else spec_sets ni no max nf fempty l in
        (with_map s m, XReturn r)
    | XSetIr ir idx start =>
        if length ir <=? maxlen then (change s ir idx start, XReturn (Ok tt))
        else (s, XReturn (Throw InvalidArgument))
    | XSetFilter _ ir idx start => (change s ir idx start, XReturn (Ok tt))
    | XProcess input =>
        let s' := MkXSpec (xs_map s) (xs_new s) (xs_old s) (xs_age s)
                          (fun i => xs_signal s i ++ nth i input []) in
        (MkXSpec (xs_map s) (xs_new s) (xs_old s) (fun f => S (xs_age s f)) (xs_signal s'),
         XAudio (Ok (xspec_block s')))
    end.

  (** Blocks have the configured size, filter indices are below the configured number
      (the class does not check this, see C26_filter_index_refuted), transformed filters are
      transforms of impulse responses. *)
  Definition xop_ok (parts : nat) (op : xop) : Prop :=
    match op with
    | XSetRouting x => r_filter x < nf
    | XRemoveRouting _ _ => True
    | XInitRoutings l => Forall (fun x => r_filter x < nf) l
    | XSetIr _ idx _ => idx < nf
    | XSetFilter h ir idx _ => idx < nf /\ acts_as b parts h ir
    | XProcess input => length input = ni /\ Forall (fun x => length x = b) input
    end.

  (** *** Refinement *)
  Variable cst : T.
  Hypothesis TO : transform_ok rO radd rmul kzero kadd kmul inj fwd inv dsize b cst.
  Hypothesis Lup : length up = transition.
  Hypothesis Ldown : length down = transition.
  Hypothesis bpos : 0 < b.
  Let nb := ramp_blocks transition b.

  Lemma nb_ge : (transition <= (nb - 1) * b)%nat /\ (1 <= nb)%nat.
  Proof.
    unfold nb, ramp_blocks. rewrite Nat.add_sub.
    assert (D := Nat.div_mod (transition + b - 1) b ltac:(lia)).
    assert (M := Nat.mod_upper_bound (transition + b - 1) b ltac:(lia)). nia.
  Qed.

  Definition slots_ok (x : cross) (s : xspec) (F : nat -> list T) : Prop :=
    forall f, f < nf ->
      (nth_error (x_current x) f = Some 0%nat /\ F f = xs_new s f /\ F (f + nf)%nat = xs_old s f)
      \/ (nth_error (x_current x) f = Some 1%nat /\ F (f + nf)%nat = xs_new s f /\ F f = xs_old s f).

  Record xrel (x : cross) (s : xspec) : Prop := {
    y_core : exists F, core_inv (x_core x) (2 * nf) (xs_signal s) F /\ slots_ok x s F;
    y_block : c_block (x_core x) = b;
    y_inputs : c_inputs (x_core x) = ni;
    y_maxlen : c_maxlen (x_core x) = maxlen;
    y_parts : c_parts (x_core x) = number_of_partitions maxlen b;
    y_scale : c_scale (x_core x) * cst = 1;
    y_outputs : x_outputs x = no;
    y_max : x_max x = max;
    y_filters : x_filters x = nf;
    y_blocks : x_blocks x = nb;
    y_up : x_up x = up ++ repeat 1 (b * nb - transition);
    y_down : x_down x = down ++ repeat 0 (b * nb - transition);
    y_current : length (x_current x) = nf;
    y_ramp : length (x_ramp x) = nf
             /\ forall f, f < nf -> nth_error (x_ramp x) f = Some (Nat.min (xs_age s f) (nb - 1));
    y_table : table_ok ni no max nf (x_table x) (xs_map s) }.

  Lemma weights_read w tail l age : l = w ++ repeat tail (b * nb - transition) -> length w = transition ->
    exists d, mem_read l (Nat.min age (nb - 1) * b) b = Ok d /\ length d = b
      /\ forall k, k < b -> at_ d k = nth (age * b + k) w tail.
  Proof.
    intros E L. destruct nb_ge as [N1 N2].
    assert (Ll : length l = (b * nb)%nat) by (rewrite E, app_length, repeat_length, L; nia).
    destruct (mem_read_ok l (Nat.min age (nb - 1) * b) b) as (d & Ed & Ld & Nd); [nia|].
    exists d. split; [exact Ed|]. split; [exact Ld|]. intros k Hk.
    specialize (Nd k). destruct (Nat.ltb_spec k b); [|lia].
    destruct (nth_error_lt d k) as [v Ev]; [lia|]. rewrite (nth_error_nth _ _ _ Ev). rewrite Ev in Nd.
    symmetry in Nd. rewrite E in Nd.
    destruct (lt_dec (Nat.min age (nb - 1) * b + k) transition) as [H1|H1].
    - rewrite nth_error_app1 in Nd by lia.
      assert (A : (age <= nb - 1)%nat) by nia. rewrite Nat.min_l in Nd by exact A.
      symmetry. now apply nth_error_nth.
    - rewrite nth_error_app2 in Nd by lia.
      apply nth_error_In, repeat_spec in Nd. subst v.
      symmetry. apply nth_overflow. destruct (Nat.min_spec age (nb - 1)) as [[A B]|[A B]]; rewrite B in H1; nia.
  Qed.

  Lemma entry_ok x s r out :
    xrel x s -> (forall i, i < ni -> b <= length (xs_signal s i)) ->
    r_in r < ni -> r_out r < no -> r_filter r < nf ->
    length out = no -> (forall o y, nth_error out o = Some y -> length y = b) ->
    exists y y', nth_error out (r_out r) = Some y /\ length y' = b
      /\ cross_entry radd rmul kadd kmul inj inv x r out = Ok (set_nth out (r_out r) y')
      /\ forall k, k < b -> at_ y' k = at_ y k + faded s k (r_in r) (r_filter r) (r_gain r).
  Proof.
    intros Q Hs R1 R2 R3 Lo Wo. destruct Q as [(F & V & Sl) Yb Yi Ym Yp Ys Yo Yx Yf Yn Yu Yd Yc [Yr1 Yr2] Yt].
    destruct (nth_error_lt out (r_out r)) as [y Ey]; [lia|].
    assert (PF : forall pos, pos < 2 * nf -> exists X, process_filter kadd kmul inj (x_core x) (r_in r) pos (r_gain r) [] false = Ok X
       /\ length (transform_output inv (x_core x) X) = b
       /\ forall k, k < b -> at_ (transform_output inv (x_core x) X) k
            = r_gain r * conv (F pos) (xs_signal s (r_in r)) (length (xs_signal s (r_in r)) - b + k)%nat).
    { intros pos Hp.
      destruct (process_filter_ok rO rI radd rmul rsub ropp RT kzero kadd kmul inj fwd inv dsize b cst TO
                  (x_core x) (2 * nf) (xs_signal s) F (r_in r) pos (r_gain r) [] false V Yb) as (X & EX & LX & TX);
        [congruence|exact Hp|now apply Hs|discriminate|].
      exists X. split; [exact EX|].
      split; [now apply (transform_output_length rO radd rmul kzero kadd kmul inj fwd inv dsize b cst TO)|].
      intros k Hk. rewrite TX.
      assert (Lc : length (conv_block b (F pos) (xs_signal s (r_in r))) = b)
        by (unfold ConvolverProofs.conv_block; now rewrite map_length, seq_length).
      rewrite (map2_nth radd 0 0) by (rewrite ?repeat_length, ?map_length, ?Lc; auto).
      rewrite nth_repeat, (map_nth' (rmul (r_gain r)) 0) by (now rewrite Lc).
      unfold ConvolverProofs.conv_block. rewrite map_seq_nth by exact Hk. ring. }
    destruct (weights_read up 1 (x_up x) (xs_age s (r_filter r)) Yu Lup) as (du & Eu & Lu & Nu).
    destruct (weights_read down 0 (x_down x) (xs_age s (r_filter r)) Yd Ldown) as (dd & Ed & Ld & Nd).
    assert (Main : forall fin fout X0 X1,
       process_filter kadd kmul inj (x_core x) (r_in r) fin (r_gain r) [] false = Ok X0 ->
       process_filter kadd kmul inj (x_core x) (r_in r) fout (r_gain r) [] false = Ok X1 ->
       fin < 2 * nf -> fout < 2 * nf -> F fin = xs_new s (r_filter r) -> F fout = xs_old s (r_filter r) ->
       let t0 := transform_output inv (x_core x) X0 in let t1 := transform_output inv (x_core x) X1 in
       let y' := map2 radd y (map2 (fun acc p => acc + p) (map2 rmul du t0) (map2 rmul dd t1)) in
       length y' = b /\ forall k, k < b -> at_ y' k = at_ y k + faded s k (r_in r) (r_filter r) (r_gain r)).
    { intros fin fout X0 X1 E0 E1 Hi0 Hi1 F0 F1 t0 t1 y'.
      destruct (PF fin Hi0) as (X0' & E0' & L0 & N0). assert (X0' = X0) by congruence. subst X0'.
      destruct (PF fout Hi1) as (X1' & E1' & L1 & N1). assert (X1' = X1) by congruence. subst X1'.
      fold t0 in L0, N0. fold t1 in L1, N1.
      assert (Ly := Wo _ _ Ey).
      assert (La : length (map2 rmul du t0) = b) by (rewrite map2_length; congruence).
      assert (Lb : length (map2 rmul dd t1) = b) by (rewrite map2_length; congruence).
      assert (Lc : length (map2 (fun acc p => acc + p) (map2 rmul du t0) (map2 rmul dd t1)) = b)
        by (rewrite map2_length; congruence).
      split; [unfold y'; rewrite map2_length; congruence|].
      intros k Hk. unfold y'.
      rewrite (map2_nth radd 0 0) by (congruence || lia).
      rewrite (map2_nth (fun acc p => acc + p) 0 0) by (congruence || lia).
      rewrite !(map2_nth rmul 0 0) by (congruence || lia).
      rewrite Nu, Nd, N0, N1, F0, F1 by exact Hk. reflexivity. }
    destruct (Sl (r_filter r) R3) as [(C1 & C2 & C3)|(C1 & C2 & C3)].
    - destruct (PF (r_filter r) ltac:(lia)) as (X0 & E0 & _). destruct (PF (r_filter r + nf)%nat ltac:(lia)) as (X1 & E1 & _).
      destruct (Main _ _ _ _ E0 E1 ltac:(lia) ltac:(lia) C2 C3) as [ML MN].
      exists y. eexists. split; [exact Ey|]. split; [|split]; [| |exact MN]; [exact ML|].
      unfold cross_entry. rewrite (get_ok _ _ _ C1). cbn [bind]. rewrite Nat.eqb_refl, Yf, E0, E1. cbn [bind].
      rewrite (get_ok _ _ _ (Yr2 _ R3)). cbn [bind]. rewrite Yb, Eu, Ed. cbn [bind].
      now rewrite (get_ok _ _ _ Ey).
    - destruct (PF (r_filter r) ltac:(lia)) as (X0 & E0 & _). destruct (PF (r_filter r + nf)%nat ltac:(lia)) as (X1 & E1 & _).
      destruct (Main _ _ _ _ E1 E0 ltac:(lia) ltac:(lia) C2 C3) as [ML MN].
      exists y. eexists. split; [exact Ey|]. split; [|split]; [| |exact MN]; [exact ML|].
      unfold cross_entry. rewrite (get_ok _ _ _ C1). cbn [bind Nat.eqb]. rewrite Yf, E0, E1. cbn [bind].
      rewrite (get_ok _ _ _ (Yr2 _ R3)). cbn [bind]. rewrite Yb, Eu, Ed. cbn [bind].
      now rewrite (get_ok _ _ _ Ey).
  Qed.

  Lemma entries_ok x s : xrel x s -> (forall i, i < ni -> b <= length (xs_signal s i)) ->
    forall t out, (forall r, In r t -> r_in r < ni /\ r_out r < no /\ r_filter r < nf) ->
    length out = no -> (forall o y, nth_error out o = Some y -> length y = b) ->
    exists out', cross_entries radd rmul kadd kmul inj inv x t out = Ok out' /\ length out' = no
      /\ (forall o y, nth_error out' o = Some y -> length y = b)
      /\ forall o y y', nth_error out o = Some y -> nth_error out' o = Some y' ->
           forall k, k < b -> at_ y' k = at_ y k + table_sum rO radd (faded s k) t o.
  Proof.
    intros Q Hs. induction t as [|r t IH]; intros out Ht Lo Wo.
    - exists out. split; [reflexivity|]. split; [exact Lo|]. split; [exact Wo|].
      intros o y y' E1 E2 k _. assert (y = y') by congruence. subst. simpl. ring.
    - destruct (Ht r (or_introl eq_refl)) as (R1 & R2 & R3).
      destruct (entry_ok x s r out Q Hs R1 R2 R3 Lo Wo) as (y0 & y0' & E0 & L0 & Ee & N0).
      cbn [cross_entries]. rewrite Ee. cbn [bind].
      assert (Sn := set_nth_error out (r_out r) y0').
      destruct (IH (set_nth out (r_out r) y0')) as (out' & E & L & W & N).
      { intros r' Hr'. apply Ht. now right. }
      { now rewrite set_nth_length. }
      { intros o y Hy. rewrite Sn in Hy. destruct ((o =? r_out r) && (r_out r <? length out)); [injection Hy as <-; exact L0|now apply (Wo o)]. }
      exists out'. split; [exact E|]. split; [exact L|]. split; [exact W|].
      intros o y y' E1 E2 k Hk. cbn [table_sum fold_right]. fold (table_sum rO radd (faded s k) t o).
      specialize (Sn o). destruct (Nat.ltb_spec (r_out r) (length out)); [|lia]. rewrite andb_true_r in Sn.
      destruct (Nat.eqb_spec o (r_out r)) as [Eo|No].
      + rewrite (N _ _ _ Sn E2 k Hk), (N0 k Hk), Eo, Nat.eqb_refl. assert (y = y0) by congruence. subst y. ring.
      + rewrite E1 in Sn. rewrite (N _ _ _ Sn E2 k Hk). destruct (Nat.eqb_spec (r_out r) o); [congruence|]. ring.
  Qed.

  Lemma xprocess_rel x s input : xrel x s -> length input = ni -> Forall (fun x => length x = b) input ->
    exists x', cross_process 0 radd rmul kadd kmul inj fwd inv x input
               = Ok (x', xspec_block (MkXSpec (xs_map s) (xs_new s) (xs_old s) (xs_age s)
                                        (fun i => xs_signal s i ++ nth i input [])))
      /\ xrel x' (fst (xspec_step s (XProcess input))).
  Proof.
    intros Q Li Fi. destruct Q as [(F & V & Sl) Yb Yi Ym Yp Ys Yo Yx Yf Yn Yu Yd Yc [Yr1 Yr2] Yt].
    destruct (process_inputs_ok rO radd rmul kmul fwd inv dsize b
                (x_core x) (2 * nf) (xs_signal s) F input V Yb) as (c' & E & V' & Cb & Ci & Cp & Cm & Cf & Cs);
      [congruence|exact Fi|].
    assert (Fb : forall i, firstn b (nth i input []) = nth i input []).
    { intros i. apply firstn_all2. destruct (nth_in_or_default i input []) as [H|H].
      - rewrite Forall_forall in Fi. rewrite (Fi _ H). lia.
      - rewrite H. simpl. lia. }
    set (s1 := MkXSpec (xs_map s) (xs_new s) (xs_old s) (xs_age s) (fun i => xs_signal s i ++ nth i input [])).
    assert (V1 : core_inv c' (2 * nf) (xs_signal s1) F).
    { destruct V'. constructor; auto.
      - destruct v_ring as [al [C1 C2 C3 C4 C5 C6]]. exists al. constructor; auto.
        intros ch row Hrow. specialize (C6 ch row Hrow). unfold appended in C6. now rewrite Fb in C6.
      - intros ch r Hr. destruct (v_fdl_row ch r Hr) as [A B]. split; [exact A|]. intros k Hk.
        rewrite (B k Hk). simpl. unfold appended. now rewrite Fb. }
    unfold cross_process. rewrite E. cbn [bind].
    set (x1 := MkCross c' (x_outputs x) (x_max x) (x_table x) (x_filters x) (x_blocks x) (x_current x) (x_ramp x) (x_up x) (x_down x)).
    assert (Q1 : xrel x1 s1).
    { constructor; simpl; auto; try congruence. exists F. split; [exact V1|exact Sl]. }
    destruct (entries_ok x1 s1 Q1) with (t := x_table x) (out := repeat (repeat 0 (c_block c')) (x_outputs x))
      as (out' & Eo & Lo & Wo & No).
    - intros i Hi. simpl. rewrite app_length.
      assert (length (nth i input []) = b); [|lia]. rewrite Forall_forall in Fi. apply Fi, nth_In. congruence.
    - intros r Hr. destruct Yt as (Vt & _ & Bt & _). destruct (proj2 Vt r Hr). auto.
    - now rewrite repeat_length.
    - intros o y Hy. apply nth_error_In, repeat_spec in Hy. subst y. now rewrite repeat_length.
    - rewrite Eo. cbn [bind]. eexists. split.
      + f_equal. f_equal. unfold xspec_block. apply (list_ext []).
        * now rewrite map_length, seq_length.
        * intros o Ho. rewrite map_seq_nth by congruence.
          destruct (nth_error_lt out' o Ho) as [y' Ey']. rewrite (nth_error_nth _ _ _ Ey').
          assert (Ly := Wo _ _ Ey').
          apply (list_ext 0); [rewrite map_length, seq_length; exact Ly|].
          intros k Hk. rewrite Ly in Hk. rewrite map_seq_nth by exact Hk.
          assert (E0 : nth_error (repeat (repeat 0 (c_block c')) (x_outputs x)) o = Some (repeat 0 (c_block c')))
            by (apply nth_error_repeat; congruence).
          rewrite (No o _ _ E0 Ey' k Hk), nth_repeat.
          destruct Yt as (Vt & _ & _ & Mt).
          rewrite (table_sum_map rO rI radd rmul rsub ropp RT ni no) by exact Vt. unfold xspec_sample.
          rewrite (sum_ext rO radd ni _ (fun i => match xs_map s1 i o with Some (f, g) => faded s1 k i f g | None => 0 end)); [ring|].
          intros i Hi. now rewrite Mt.
      + cbn [xspec_step fst]. constructor; simpl; auto; try congruence.
        * exists F. split; [exact V1|exact Sl].
        * split; [now rewrite map_length|]. intros f Hf. rewrite nth_error_map, (Yr2 f Hf). cbn [option_map].
          f_equal. rewrite Yn.
          change (Nat.min (Nat.min (xs_age s f) (nb - 1) + 1) (nb - 1) = Nat.min (S (xs_age s f)) (nb - 1))%nat. lia.
  Qed.

  Lemma switch_rel x s idx start ir install :
    xrel x s -> idx < nf ->
    (forall pos F, pos < 2 * nf -> core_inv (x_core x) (2 * nf) (xs_signal s) F ->
       exists c', install (x_core x) pos = Ok c' /\ core_inv c' (2 * nf) (xs_signal s) (upd F pos ir)
       /\ c_block c' = c_block (x_core x) /\ c_inputs c' = c_inputs (x_core x) /\ c_parts c' = c_parts (x_core x)
       /\ c_maxlen c' = c_maxlen (x_core x) /\ c_scale c' = c_scale (x_core x)) ->
    exists x', cross_switch x idx start install = Ok x' /\ xrel x' (change s ir idx start).
  Proof.
    intros Q Hi HI. destruct Q as [(F & V & Sl) Yb Yi Ym Yp Ys Yo Yx Yf Yn Yu Yd Yc [Yr1 Yr2] Yt].
    assert (Ramp : length (if start then set_nth (x_ramp x) idx 0%nat else x_ramp x) = nf
       /\ forall f, f < nf -> nth_error (if start then set_nth (x_ramp x) idx 0%nat else x_ramp x) f
            = Some (Nat.min (if ((f =? idx) && start)%bool then 0%nat else xs_age s f) (nb - 1))).
    { destruct start.
      - split; [now rewrite set_nth_length|]. intros f Hf. rewrite set_nth_error, Yr1.
        destruct (Nat.ltb_spec idx nf); [|lia]. rewrite andb_true_r.
        destruct (f =? idx); [reflexivity|now apply Yr2].
      - split; [exact Yr1|]. intros f Hf. rewrite andb_false_r. now apply Yr2. }
    destruct (Sl idx Hi) as [(C1 & C2 & C3)|(C1 & C2 & C3)].
    - destruct (HI (idx + nf)%nat F ltac:(lia) V) as (c' & E & V' & A1 & A2 & A3 & A4 & A5).
      exists (MkCross c' (x_outputs x) (x_max x) (x_table x) (x_filters x) (x_blocks x)
          (set_nth (x_current x) idx 1%nat)
          (if start then set_nth (x_ramp x) idx 0%nat else x_ramp x) (x_up x) (x_down x)). split.
      + unfold cross_switch. rewrite (get_ok _ _ _ C1). cbn [bind Nat.eqb]. rewrite Yf, E. reflexivity.
      + constructor; simpl; auto; try congruence; try (rewrite set_nth_length; assumption).
        exists (upd F (idx + nf)%nat ir). split; [exact V'|].
        intros f Hf. cbn [x_current change xs_new xs_old]. rewrite set_nth_error, Yc. destruct (Nat.ltb_spec idx nf); [|lia]. rewrite andb_true_r.
        unfold upd. destruct (Nat.eqb_spec f idx) as [->|Nf].
        * right. split; [reflexivity|]. rewrite Nat.eqb_refl. split; [reflexivity|].
          destruct (Nat.eqb_spec idx (idx + nf)); [lia|]. exact C2.
        * destruct (Nat.eqb_spec f (idx + nf)), (Nat.eqb_spec (f + nf) (idx + nf)); try lia.
          apply (Sl f Hf).
    - destruct (HI idx F ltac:(lia) V) as (c' & E & V' & A1 & A2 & A3 & A4 & A5).
      exists (MkCross c' (x_outputs x) (x_max x) (x_table x) (x_filters x) (x_blocks x)
          (set_nth (x_current x) idx 0%nat)
          (if start then set_nth (x_ramp x) idx 0%nat else x_ramp x) (x_up x) (x_down x)). split.
      + unfold cross_switch. rewrite (get_ok _ _ _ C1). cbn [bind Nat.eqb]. rewrite E. reflexivity.
      + constructor; simpl; auto; try congruence; try (rewrite set_nth_length; assumption).
        exists (upd F idx ir). split; [exact V'|].
        intros f Hf. cbn [x_current change xs_new xs_old]. rewrite set_nth_error, Yc. destruct (Nat.ltb_spec idx nf); [|lia]. rewrite andb_true_r.
        unfold upd. destruct (Nat.eqb_spec f idx) as [->|Nf].
        * left. split; [reflexivity|]. split; [reflexivity|].
          destruct (Nat.eqb_spec (idx + nf) idx); [lia|]. exact C2.
        * destruct (Nat.eqb_spec (f + nf) idx); [lia|]. apply (Sl f Hf).
  Qed.

  Lemma xstep_rel x s op : xrel x s -> xop_ok (number_of_partitions maxlen b) op ->
    xrel (fst (cross_step x op)) (fst (xspec_step s op)) /\ snd (cross_step x op) = snd (xspec_step s op).
  Proof.
    intros Q W. assert (Q' := Q). destruct Q as [(F & V & Sl) Yb Yi Ym Yp Ys Yo Yx Yf Yn Yu Yd Yc Yr Yt].
    destruct op as [r|i o|l|ir idx start|h ir idx start|input]; cbn [cross_step xspec_step].
    - simpl in W. unfold cross_set_routing. rewrite (v_filters _ _ _ _ _ _ _ _ _ _ _ V), Yi, Yo, Yx.
      rewrite set_routing_double by exact W.
      assert (S := set_entry_rel ni no max nf _ _ r Yt).
      destruct (fset_entry ni no nf max (xs_map s) r) as [m'|].
      + destruct S as (t' & E & K'). rewrite E. split; [|reflexivity].
        constructor; simpl; auto. exists F. split; [exact V|exact Sl].
      + rewrite S. split; [|reflexivity]. constructor; simpl; auto. exists F. split; [exact V|exact Sl].
    - split; [|reflexivity]. destruct Yt as (Vt & Lt & Bt & Mt).
      destruct (remove_routing_ok 0 ni no max (x_table x) i o Vt Lt) as (A & B & D).
      constructor; simpl; auto.
      + exists F. split; [exact V|exact Sl].
      + split; [exact A|]. split; [exact B|]. split.
        * intros r Hr. apply erase_not_in in Hr. now apply Bt.
        * intros i' o'. rewrite D. unfold fset. now rewrite Mt.
    - simpl in W. rewrite (v_filters _ _ _ _ _ _ _ _ _ _ _ V), Yi, Yo, Yx. unfold init_routings.
      rewrite set_routings_double by exact W.
      destruct (max <? length l).
      + split; [|reflexivity]. constructor; simpl; auto.
        * exists F. split; [exact V|exact Sl].
        * apply empty_ok.
      + destruct (sets_rel ni no max nf l [] fempty (empty_ok ni no max nf)) as (t' & E & K'). rewrite E.
        destruct (spec_sets ni no max nf fempty l) as [mm r]. split; [|reflexivity].
        constructor; simpl; auto. exists F. split; [exact V|exact Sl].
    - simpl in W. unfold cross_set_ir. destruct (Nat.leb_spec (length ir) maxlen) as [L|L].
      + destruct (switch_rel x s idx start ir (fun c pos => set_ir 0 rmul fwd c ir pos) Q' W) as (x' & E & R).
        * intros pos F' Hp V'.
          assert (S := set_ir_ok rO rI radd rmul rsub ropp RT kzero kadd kmul inj fwd inv dsize b cst TO
                     (x_core x) (2 * nf) (xs_signal s) F' ir pos V' Yb Ys).
          destruct (set_ir 0 rmul fwd (x_core x) ir pos) as [c'|e|]; [| |destruct S].
          -- destruct S as (_ & _ & V2 & A1 & A2 & A3 & A4 & A5). exists c'. rewrite Yb. auto 10.
          -- destruct S as [_ [S|S]]; lia.
        * rewrite E. split; [exact R|reflexivity].
      + assert (E : cross_switch x idx start (fun c pos => set_ir 0 rmul fwd c ir pos) = Throw InvalidArgument).
        { unfold cross_switch. destruct (nth_error_lt (x_current x) idx) as [cur Ec]; [lia|].
          rewrite (get_ok _ _ _ Ec). cbn [bind].
          unfold set_ir, transform_ir. rewrite (v_filters _ _ _ _ _ _ _ _ _ _ _ V), Yf, Ym.
          destruct (Nat.ltb_spec maxlen (length ir)); [|lia].
          destruct (_ <=? _); reflexivity. }
        rewrite E. split; [exact Q'|reflexivity].
    - simpl in W. destruct W as [W1 W2]. unfold cross_set_filter.
      destruct (switch_rel x s idx start ir (fun c pos => set_filter c h pos) Q' W1) as (x' & E & R).
      + intros pos F' Hp V'. unfold set_filter. rewrite (v_filters _ _ _ _ _ _ _ _ _ _ _ V').
        destruct (Nat.leb_spec (2 * nf) pos); [lia|].
        eexists. split; [reflexivity|]. split; [|auto].
        apply install_inv; [exact V'|exact Hp|]. now rewrite Yb, Yp.
      + rewrite E. split; [exact R|reflexivity].
    - destruct W as [W1 W2]. destruct (xprocess_rel x s input Q' W1 W2) as (x' & E & R). rewrite E.
      split; [exact R|reflexivity].
  Qed.

  Lemma xrun_rel ops : forall x s, xrel x s -> Forall (xop_ok (number_of_partitions maxlen b)) ops ->
    outputs cross_step x ops = outputs xspec_step s ops
    /\ xrel (final cross_step x ops) (final xspec_step s ops).
  Proof.
    induction ops as [|o ops IH]; intros x s R W; [split; [reflexivity|exact R]|].
    assert (W1 := Forall_inv W). assert (W2 := Forall_inv_tail W). rewrite !outputs_cons, !final_cons.
    destruct (xstep_rel x s o R W1) as [R' E]. rewrite E. destruct (IH _ _ R' W2) as [A B]. now rewrite A.
  Qed.

  (** The constructor with initial filters: they are in force without any transition. *)
  Definition cross_make (al : nat) (scale : T) (rows : list (list T)) (cols : nat) : res unit * cross :=
    cross_init_filters 0 rmul kzero fwd dsize
      (cross_new 0 kzero dsize 1 up down ni no b maxlen max nf al scale transition) rows cols.
  Definition xspec_init (rows : list (list T)) : xspec :=
    MkXSpec fempty (fun f => nth f rows []) (fun _ => []) (fun _ => (nb - 1)%nat) (fun _ => []).

  Lemma cross_make_rel al scale rows cols :
    0 < maxlen -> scale * cst = 1 -> length rows <= nf -> cols <= maxlen ->
    Forall (fun r => length r = cols) rows ->
    exists x, cross_make al scale rows cols = (Ok tt, x) /\ xrel x (xspec_init rows).
  Proof.
    intros Hm Es Lr Lc Fr. unfold cross_make, cross_init_filters, cross_new. cbn [x_core].
    destruct (core_new_ok rO rI radd rmul rsub ropp RT kzero kadd kmul inj fwd inv dsize b cst TO
                ni maxlen (2 * nf) al scale bpos Hm) as [V Ep].
    destruct (init_filters_ok rO rI radd rmul rsub ropp RT kzero kadd kmul inj fwd inv dsize b cst TO
                _ _ _ _ rows cols V eq_refl Es Fr) as (c' & E & V' & A1 & A2 & A3 & A4 & A5).
    cbn [core_new c_maxlen] in E, V'. destruct (Nat.leb_spec (length rows) (2 * nf)); [|lia].
    destruct (Nat.leb_spec cols maxlen); [|lia]. cbn [andb] in E, V'. rewrite E.
    eexists. split; [reflexivity|].
    constructor; cbn [x_core x_outputs x_max x_table x_filters x_blocks x_current x_ramp x_up x_down
      xs_map xs_new xs_old xs_age xs_signal xspec_init]; auto; try (rewrite repeat_length; reflexivity).
    - exists (fun f => nth f rows []). split; [exact V'|]. intros f Hf. left.
      cbn [x_current xs_new xs_old xspec_init]. split; [now apply nth_error_repeat|]. split; [reflexivity|].
      apply nth_overflow. lia.
    - rewrite A5. exact Es.
    - split; [apply repeat_length|]. intros f Hf. rewrite Nat.min_id. now apply nth_error_repeat.
    - apply empty_ok.
  Qed.
  End Sizes.
End Cross.
