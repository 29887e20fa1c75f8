(** The filter component refines the cascade of section state machines. *)
From Verif Require Import Base Memory BiquadModel BiquadProofs.
From Coq Require Import Ring.
Local Open Scope res_scope.

(** *** Arrays of fixed-size records *)
Section Flat.
  Context {B T : Type} (g : B -> list T) (w : nat) (Hg : forall b, length (g b) = w).
  Definition flat (l : list B) : list T := concat (map g l).

  Lemma flat_length l : length (flat l) = length l * w.
  Proof.
    induction l as [|b l IH]; simpl; [reflexivity|].
    unfold flat in *. simpl. rewrite app_length, Hg, IH. reflexivity.
  Qed.

  Lemma flat_app l1 l2 : flat (l1 ++ l2) = flat l1 ++ flat l2.
  Proof. unfold flat. now rewrite map_app, concat_app. Qed.

  Lemma nth_error_split_row {A} (l : list A) k b :
    nth_error l k = Some b -> exists l1 l2, l = l1 ++ b :: l2 /\ length l1 = k.
  Proof. apply nth_error_split. Qed.

  Lemma flat_read l k b : nth_error l k = Some b -> mem_read (flat l) (k * w) w = Ok (g b).
  Proof.
    intros H. destruct (nth_error_split_row l k b H) as (l1 & l2 & -> & L).
    rewrite flat_app. change (flat (b :: l2)) with (g b ++ flat l2).
    replace (k * w) with (length (flat l1)) by (rewrite flat_length; lia).
    replace w with (length (g b)) by apply Hg. apply mem_read_app.
  Qed.

  Lemma mem_write_app {A} (a b c d : list A) : length d = length b ->
    mem_write (a ++ b ++ c) (length a) d = Ok (a ++ d ++ c).
  Proof.
    intros L. unfold mem_write. rewrite !app_length, L.
    destruct (Nat.leb_spec (length a + length b) (length a + (length b + length c))); [|lia].
    f_equal. rewrite firstn_app, Nat.sub_diag, firstn_all. simpl. rewrite app_nil_r.
    f_equal. f_equal. rewrite skipn_app. rewrite skipn_all2 by lia. simpl.
    replace (length a + length b - length a) with (length b) by lia.
    rewrite skipn_app, skipn_all, Nat.sub_diag. reflexivity.
  Qed.

  Lemma replace_row_app {A} (l1 : list A) b l2 x :
    replace_row (l1 ++ b :: l2) (length l1) x = l1 ++ x :: l2.
  Proof. induction l1; simpl; [reflexivity|]. now f_equal. Qed.

  Lemma flat_write l k b : k < length l ->
    mem_write (flat l) (k * w) (g b) = Ok (flat (replace_row l k b)).
  Proof.
    intros H. destruct (nth_error_lt l k H) as [b0 E].
    destruct (nth_error_split_row l k b0 E) as (l1 & l2 & -> & L). subst k.
    rewrite replace_row_app, !flat_app.
    change (flat (b0 :: l2)) with (g b0 ++ flat l2). change (flat (b :: l2)) with (g b ++ flat l2).
    replace (length l1 * w) with (length (flat l1)) by (rewrite flat_length; lia).
    apply mem_write_app. now rewrite !Hg.
  Qed.
End Flat.

Lemma replace_row_map {A B} (h : A -> B) l : forall k x,
  replace_row (map h l) k (h x) = map h (replace_row l k x).
Proof. induction l as [|y l IH]; intros [|k] x; simpl; auto. now rewrite IH. Qed.

Lemma replace_row_same {A} (l : list A) : forall k x, nth_error l k = Some x -> replace_row l k x = l.
Proof.
  induction l as [|y l IH]; intros [|k] x H; simpl in *; try discriminate; [congruence|].
  f_equal. auto.
Qed.

Section Component.
  Context {T : Type} (rO rI : T) (radd rmul rsub : T -> T -> T) (ropp : T -> T).
  Variable RT : ring_theory rO rI radd rmul rsub ropp (@eq T).
  Local Notation coeff := (coefficient T).
  Local Notation sec_run := (sec_run radd rmul rsub).
  Local Notation cas_run := (cas_run radd rmul rsub).

  Definition pair_list (v : T * T) : list T := [fst v; snd v].
  Definition flat_c : list coeff -> list T := flat data.
  Definition flat_s : list (T * T) -> list T := flat pair_list.

  Lemma data_length (c : coeff) : length (data c) = 5. Proof. reflexivity. Qed.
  Lemma pair_length (v : T * T) : length (pair_list v) = 2. Proof. reflexivity. Qed.

  Lemma biquad_loop_run c : forall xs v1 v2,
    biquad_loop radd rsub rmul (b0 c) (b1 c) (b2 c) (a1 c) (a2 c) v1 v2 xs
    = sec_run (v1, v2) (combine (repeat c (length xs)) xs).
  Proof.
    induction xs as [|x xs IH]; intros v1 v2; simpl; [reflexivity|].
    rewrite IH. reflexivity.
  Qed.

  Lemma iir_biquad_ok xs vs cs k v c :
    nth_error vs k = Some v -> nth_error cs k = Some c ->
    iir_biquad radd rsub rmul xs (flat_s vs) (k * 2) (flat_c cs) (k * 5)
    = Ok (fst (sec_run v (combine (repeat c (length xs)) xs)),
          flat_s (replace_row vs k (snd (sec_run v (combine (repeat c (length xs)) xs))))).
  Proof.
    intros Hv Hc. unfold iir_biquad, flat_c, flat_s.
    rewrite (flat_read data 5 data_length cs k c Hc). cbn [bind].
    rewrite (flat_read pair_list 2 pair_length vs k v Hv). cbn [bind].
    change (data c) with [b0 c; b1 c; b2 c; a1 c; a2 c].
    change (pair_list v) with [fst v; snd v]. cbn iota. rewrite biquad_loop_run.
    replace (fst v, snd v) with v by now destruct v.
    destruct (sec_run v (combine (repeat c (length xs)) xs)) as [out [w1 w2]].
    assert (H : k < length vs) by (apply nth_error_Some; congruence).
    assert (E := flat_write pair_list 2 pair_length vs k (w1, w2) H).
    change (pair_list (w1, w2)) with [w1; w2] in E. rewrite E. reflexivity.
  Qed.

  Definition streams (n : nat) (cs : list coeff) : list (list coeff) := map (fun c => repeat c n) cs.

  Lemma further_sections_ok : forall vs2 cs2 vs1 cs1 xs,
    length vs1 = length cs1 -> length vs2 = length cs2 ->
    further_sections radd rsub rmul (length cs2) (length cs1) xs
      (flat_s (vs1 ++ vs2)) (flat_c (cs1 ++ cs2)) 2 5
    = Ok (fst (cas_run vs2 (streams (length xs) cs2) xs),
          flat_s (vs1 ++ snd (cas_run vs2 (streams (length xs) cs2) xs))).
  Proof.
    induction vs2 as [|v vs2 IH]; intros [|c cs2] vs1 cs1 xs L1 L2; simpl in *; try discriminate.
    - rewrite app_nil_r. reflexivity.
    - rewrite (iir_biquad_ok xs (vs1 ++ v :: vs2) (cs1 ++ c :: cs2) (length cs1) v c).
      + cbn [bind].
        assert (Lm := sec_run_length radd rmul rsub v (combine (repeat c (length xs)) xs)).
        rewrite combine_length, repeat_length, Nat.min_id in Lm.
        destruct (sec_run v (combine (repeat c (length xs)) xs)) as [mid v'] eqn:E. cbn [fst snd] in *.
        replace (replace_row (vs1 ++ v :: vs2) (length cs1) v') with (vs1 ++ v' :: vs2)
          by (rewrite <- L1; symmetry; apply replace_row_app).
        replace (vs1 ++ v' :: vs2) with ((vs1 ++ [v']) ++ vs2) by now rewrite <- app_assoc.
        replace (cs1 ++ c :: cs2) with ((cs1 ++ [c]) ++ cs2) by now rewrite <- app_assoc.
        replace (S (length cs1)) with (length (cs1 ++ [c])) by (rewrite app_length; simpl; lia).
        rewrite IH by (rewrite ?app_length; simpl; lia). rewrite Lm.
        fold (streams (length xs) cs2).
        destruct (cas_run vs2 (streams (length xs) cs2) mid) as [ys vs'].
        cbn [fst snd]. now rewrite <- app_assoc.
      + rewrite nth_error_app2 by lia. now rewrite L1, Nat.sub_diag.
      + rewrite nth_error_app2 by lia. now rewrite Nat.sub_diag.
  Qed.

  Lemma single_channel_ok vs cs xs n : length vs = length cs -> length cs = n ->
    iir_single_channel radd rsub rmul xs (flat_s vs) (flat_c cs) n 2 5
    = Ok (fst (cas_run vs (streams (length xs) cs) xs),
          flat_s (snd (cas_run vs (streams (length xs) cs) xs))).
  Proof.
    intros L <-. unfold iir_single_channel.
    destruct cs as [|c cs], vs as [|v vs]; try discriminate; [reflexivity|].
    cbn [length]. cbn [Nat.eqb].
    assert (E := further_sections_ok (v :: vs) (c :: cs) [] [] xs eq_refl L).
    cbn [length further_sections app] in E. simpl Nat.mul in E.
    replace (S (length cs) - 1) with (length cs) by lia. exact E.
  Qed.

  (** *** The component *)
  Record represents (f : filter T) (C : list (list coeff)) (V : list (list (T * T))) : Prop := {
    rep_coeffs : coeff_rows f = map flat_c C;
    rep_states : state_rows f = map flat_s V;
    rep_nc : length C = channels f;
    rep_nv : length V = channels f;
    rep_sc : Forall (fun cs => length cs = sections f) C;
    rep_sv : Forall (fun vs => length vs = sections f) V }.

  Lemma Forall_nth_error {A} (P : A -> Prop) l i x : Forall P l -> nth_error l i = Some x -> P x.
  Proof. intros F H. rewrite Forall_forall in F. apply F. eapply nth_error_In; eauto. Qed.

  Lemma Forall_replace {A} (P : A -> Prop) l : forall i x, Forall P l -> P x -> Forall P (replace_row l i x).
  Proof.
    induction l as [|y l IH]; intros [|i] x F Px; simpl; auto; inversion F; subst; constructor; auto.
  Qed.

  Lemma flat_repeat {B} (g : B -> list T) (b : B) z n w :
    g b = repeat z w -> flat g (repeat b n) = repeat z (n * w).
  Proof.
    intros E. unfold flat. induction n as [|n IH]; simpl; [reflexivity|].
    rewrite IH, E. now rewrite repeat_app.
  Qed.

  Lemma construct_represents nch nsec :
    represents (construct rO nch nsec)
      (repeat (repeat (no_filter rO) nsec) nch) (repeat (repeat (rO, rO) nsec) nch).
  Proof.
    constructor; simpl; rewrite ?repeat_length; auto.
    - assert (E : flat_c (repeat (no_filter rO) nsec) = repeat rO (nsec * 5))
        by (apply flat_repeat; reflexivity).
      induction nch; simpl; [reflexivity|]. now rewrite E, IHnch.
    - assert (E : flat_s (repeat (rO, rO) nsec) = repeat rO (nsec * 2))
        by (apply flat_repeat; reflexivity).
      induction nch; simpl; [reflexivity|]. now rewrite E, IHnch.
    - apply Forall_forall. intros x H. apply repeat_spec in H. subst. apply repeat_length.
    - apply Forall_forall. intros x H. apply repeat_spec in H. subst. apply repeat_length.
  Qed.

  Lemma set_internal_ok f C V ch bq cs c :
    represents f C V -> nth_error C ch = Some cs -> bq < sections f ->
    exists f', set_coefficients_internal f ch bq c = Ok f'
      /\ represents f' (replace_row C ch (replace_row cs bq c)) V
      /\ channels f' = channels f /\ sections f' = sections f.
  Proof.
    intros R E H. unfold set_coefficients_internal.
    assert (L : length cs = sections f) by (exact (Forall_nth_error _ C _ _ (rep_sc _ _ _ R) ltac:(eassumption))).
    rewrite (row_ok _ ch (flat_c cs))
      by (rewrite (rep_coeffs _ _ _ R); now apply map_nth_error).
    cbn [bind]. unfold coeff_stride, flat_c.
    rewrite (flat_write data 5 data_length cs bq c) by lia. cbn [bind].
    eexists; split; [reflexivity|]. split; [|split; reflexivity].
    destruct R. constructor; simpl; rewrite ?replace_row_length; auto.
    - rewrite rep_coeffs0. change (flat data) with flat_c. apply replace_row_map.
    - apply Forall_replace; auto. now rewrite replace_row_length.
  Qed.

  Lemma replace_row_twice {A} (l : list A) : forall k x y,
    replace_row (replace_row l k x) k y = replace_row l k y.
  Proof. induction l; intros [|k] x y; simpl; auto. now rewrite IHl. Qed.

  Lemma firstn_snoc {A} (l : list A) n c :
    nth_error l n = Some c -> firstn (S n) l = firstn n l ++ [c].
  Proof.
    revert n; induction l as [|x l IH]; intros [|n] H; simpl in *; try discriminate; [congruence|].
    f_equal. now apply IH.
  Qed.

  Lemma replace_at {A} (a : list A) x b c : replace_row (a ++ x :: b) (length a) c = a ++ c :: b.
  Proof. induction a; simpl; [reflexivity|]. now f_equal. Qed.

  Lemma set_channel_loop_ok ch new : forall todo bq f C V cur,
    represents f C V -> nth_error C ch = Some (firstn bq new ++ cur) -> length new = sections f ->
    length cur = todo -> bq + todo = sections f ->
    exists f', set_channel_loop todo bq f ch new = Ok f'
      /\ represents f' (replace_row C ch new) V /\ channels f' = channels f /\ sections f' = sections f.
  Proof.
    induction todo as [|todo IH]; intros bq f C V cur R E L Lc Hb; simpl.
    - exists f. destruct cur; [|discriminate]. rewrite app_nil_r, firstn_all2 in E by lia.
      rewrite replace_row_same by exact E. auto.
    - destruct (nth_error_lt new bq) as [c Ec]; [lia|].
      rewrite (row_ok _ _ _ Ec). cbn [bind].
      destruct cur as [|x cur]; [discriminate|].
      destruct (set_internal_ok f C V ch bq _ c R E ltac:(lia)) as (f1 & E1 & R1 & C1 & S1).
      rewrite E1. cbn [bind].
      assert (Lf : length (firstn bq new) = bq) by (rewrite firstn_length; lia).
      assert (Hc : ch < length C) by (apply nth_error_Some; congruence).
      destruct (IH (S bq) f1 _ V cur R1) as (f2 & E2 & R2 & C2 & S2).
      + rewrite replace_row_nth by exact Hc. rewrite Nat.eqb_refl. f_equal.
        rewrite (firstn_snoc new bq c Ec).
        replace bq with (length (firstn bq new)) at 2 by exact Lf.
        rewrite replace_at. now rewrite <- app_assoc.
      + congruence.
      + simpl in Lc. lia.
      + rewrite S1. lia.
      + rewrite E2. exists f2. split; [reflexivity|]. rewrite replace_row_twice in R2.
        split; [exact R2|]. split; congruence.
  Qed.

  Lemma set_channel_internal_ok f C V ch new :
    represents f C V -> ch < channels f -> length new = sections f ->
    exists f', set_channel_internal f ch new = Ok f'
      /\ represents f' (replace_row C ch new) V /\ channels f' = channels f /\ sections f' = sections f.
  Proof.
    intros R H L. unfold set_channel_internal.
    destruct (nth_error_lt C ch) as [cs E]; [rewrite (rep_nc _ _ _ R); exact H|].
    apply (set_channel_loop_ok ch new (sections f) 0 f C V cs R E L); [|lia].
    exact (Forall_nth_error _ C _ _ (rep_sc _ _ _ R) ltac:(eassumption)).
  Qed.

  Lemma set_matrix_loop_ok (m : list (list coeff)) : forall todo ch f C V cur,
    represents f C V -> C = firstn ch m ++ cur -> length m = channels f ->
    Forall (fun r => length r = sections f) m -> length cur = todo -> ch + todo = channels f ->
    exists f', set_matrix_loop todo ch f m = Ok f'
      /\ represents f' m V /\ channels f' = channels f /\ sections f' = sections f.
  Proof.
    induction todo as [|todo IH]; intros ch f C V cur R E L F Lc Hc; simpl.
    - exists f. destruct cur; [|discriminate]. rewrite app_nil_r, firstn_all2 in E by lia. subst C. auto.
    - destruct (nth_error_lt m ch) as [r Er]; [lia|].
      rewrite (row_ok _ _ _ Er). cbn [bind].
      destruct (set_channel_internal_ok f C V ch r R ltac:(lia)) as (f1 & E1 & R1 & C1 & S1).
      { exact (Forall_nth_error _ m _ _ F Er). }
      rewrite E1. cbn [bind]. destruct cur as [|x cur]; [discriminate|].
      assert (Lf : length (firstn ch m) = ch) by (rewrite firstn_length; lia).
      destruct (IH (S ch) f1 _ V cur R1) as (f2 & E2 & R2 & C2 & S2).
      + rewrite E. rewrite (firstn_snoc m ch r Er).
        replace ch with (length (firstn ch m)) at 2 by exact Lf.
        rewrite replace_at. now rewrite <- app_assoc.
      + congruence.
      + rewrite S1. exact F.
      + simpl in Lc. lia.
      + rewrite C1. lia.
      + rewrite E2. exists f2. split; [reflexivity|]. split; [exact R2|]. split; congruence.
  Qed.

  Lemma set_matrix_internal_ok f C V m :
    represents f C V -> length m = channels f -> Forall (fun r => length r = sections f) m ->
    exists f', set_matrix_internal f m = Ok f'
      /\ represents f' m V /\ channels f' = channels f /\ sections f' = sections f.
  Proof.
    intros R L F. unfold set_matrix_internal.
    apply (set_matrix_loop_ok m (channels f) 0 f C V C); auto. apply R.
  Qed.

  (** one block through all channels *)
  Definition block_channel (cs : list coeff) (vs : list (T * T)) (x : list T) : list T * list (T * T) :=
    cas_run vs (streams (length x) cs) x.

  Lemma block_channel_states cs vs x : length vs = length cs ->
    length (snd (block_channel cs vs x)) = length vs.
  Proof.
    intros L. unfold block_channel.
    destruct (cas_run_length radd rmul rsub (streams (length x) cs) vs x) as [_ H]; auto.
    - unfold streams. now rewrite map_length.
    - intros c Hc. unfold streams in Hc. apply in_map_iff in Hc as (c0 & <- & _). apply repeat_length.
  Qed.

  Lemma process_channels_ok (input : list (list T)) : forall todo ch f C V V1 V2,
    represents f C V -> V = V1 ++ V2 -> length V1 = ch -> length V2 = todo ->
    ch + todo = channels f -> length input = channels f ->
    exists f' outs V2', process_channels radd rsub rmul todo ch f input = Ok (f', outs)
      /\ represents f' C (V1 ++ V2') /\ channels f' = channels f /\ sections f' = sections f
      /\ length outs = todo /\ length V2' = todo
      /\ forall i cs vs x, i < todo ->
           nth_error C (ch + i) = Some cs -> nth_error V2 i = Some vs -> nth_error input (ch + i) = Some x ->
           nth_error outs i = Some (fst (block_channel cs vs x))
           /\ nth_error V2' i = Some (snd (block_channel cs vs x)).
  Proof.
    induction todo as [|todo IH]; intros ch f C V V1 V2 R E L1 L2 Hc Li; simpl.
    - exists f, [], []. destruct V2; [|discriminate]. rewrite app_nil_r in *. subst V.
      split; [reflexivity|]. split; [exact R|]. do 4 (split; [reflexivity|]). intros i; lia.
    - destruct V2 as [|vs V2]; [discriminate|].
      destruct (nth_error_lt input ch) as [x Ex]; [lia|].
      destruct (nth_error_lt C ch) as [cs Ecs]; [rewrite (rep_nc _ _ _ R); lia|].
      assert (Evs : nth_error V ch = Some vs).
      { rewrite E, nth_error_app2 by lia. now rewrite L1, Nat.sub_diag. }
      rewrite (row_ok _ _ _ Ex). cbn [bind].
      rewrite (row_ok _ ch (flat_s vs)) by (rewrite (rep_states _ _ _ R); now apply map_nth_error).
      cbn [bind].
      rewrite (row_ok _ ch (flat_c cs)) by (rewrite (rep_coeffs _ _ _ R); now apply map_nth_error).
      cbn [bind].
      assert (Lcs : length cs = sections f) by (exact (Forall_nth_error _ C _ _ (rep_sc _ _ _ R) ltac:(eassumption))).
      assert (Lvs : length vs = sections f) by (exact (Forall_nth_error _ V _ _ (rep_sv _ _ _ R) ltac:(eassumption))).
      unfold state_stride, coeff_stride.
      rewrite (single_channel_ok vs cs x (sections f)) by congruence. fold (block_channel cs vs x).
      assert (Lb := block_channel_states cs vs x ltac:(congruence)).
      destruct (block_channel cs vs x) as [y vs'] eqn:B. cbn [fst snd bind] in *.
      set (f1 := MkFilter (channels f) (sections f) (coeff_rows f) (replace_row (state_rows f) ch (flat_s vs'))).
      assert (R1 : represents f1 C (V1 ++ vs' :: V2)).
      { destruct R. constructor; simpl; auto.
        - rewrite rep_states0, replace_row_map. f_equal. rewrite E, <- L1. apply replace_at.
        - rewrite <- rep_nv0, E, !app_length. reflexivity.
        - rewrite E in rep_sv0. apply Forall_app in rep_sv0 as [F1 F2].
          inversion F2; subst. apply Forall_app. split; auto. constructor; auto. congruence. }
      destruct (IH (S ch) f1 C (V1 ++ vs' :: V2) (V1 ++ [vs']) V2 R1) as (f2 & outs & V2' & E2 & R2 & C2 & S2 & Lo & Lv & P);
        simpl; try lia.
      + now rewrite <- app_assoc.
      + rewrite app_length. simpl. lia.
      + simpl in L2. lia.
      + rewrite E2. cbn [bind].
        exists f2, (y :: outs), (vs' :: V2'). split; [reflexivity|].
        split; [rewrite <- app_assoc in R2; exact R2|]. split; [exact C2|]. split; [exact S2|].
        split; [simpl; lia|]. split; [simpl; lia|].
        intros [|i] cs0 vs0 x0 Hi H1 H2 H3; simpl in *.
        * rewrite Nat.add_0_r in *. assert (cs0 = cs) by congruence. assert (x0 = x) by congruence.
          assert (vs0 = vs) by congruence. subst. rewrite B. auto.
        * replace (ch + S i) with (S (ch + i)) in * by lia. apply P; auto. lia.
  Qed.
End Component.
