(** Proofs for C79 and C80. *)
From Coq Require Import ZArith Lia.
From Verif Require Import Base Memory HoaModel HoaSpec.
Local Open Scope res_scope.

Lemma loop_inv {T} (P : nat -> T -> Prop) (step : T -> nat -> res T) n s0 :
  P 0 s0 ->
  (forall k s, k < n -> P k s -> exists s', step s k = Ok s' /\ P (S k) s') ->
  exists s', fold_left (fun r k => s <- r ;; step s k) (seq 0 n) (Ok s0) = Ok s' /\ P n s'.
Proof.
  intros H0 Hs. induction n as [|n IH].
  - exists s0. auto.
  - destruct IH as (s & E & Hp); [intros; apply Hs; auto; lia|].
    rewrite seq_S, fold_left_app, E. cbn. destruct (Hs n s ltac:(lia) Hp) as (s' & E' & Hp').
    exists s'. auto.
Qed.

Lemma below_S {T} r k (x y : T) : (if r <? S k then x else y) = (if r =? k then x else if r <? k then x else y).
Proof.
  destruct (Nat.eqb_spec r k) as [->|Hn]; [now rewrite (proj2 (Nat.ltb_lt _ _)) by lia|].
  destruct (r <? k) eqn:E1; destruct (r <? S k) eqn:E2; try reflexivity;
    [apply Nat.ltb_lt in E1; apply Nat.ltb_ge in E2|apply Nat.ltb_ge in E1; apply Nat.ltb_lt in E2]; lia.
Qed.
Lemma below_S_bool r k : (r <? S k) = (r =? k) || (r <? k).
Proof. pose proof (below_S r k true false). destruct (r <? S k), (r =? k), (r <? k); cbn in *; congruence. Qed.

Section HoaProofs.
  Variable F : Type.
  Variables (zero one : F) (add mul : F -> F -> F).
  Variable real : nat.
  Variable vbap : pos F -> pos F -> list F.

  Notation table := (table F).
  Notation matrix := (matrix F).

  Lemma table_ext m R C f g : table m R C f -> (forall r c, r < R -> c < C -> f r c = g r c) -> table m R C g.
  Proof. intros [] E. constructor; auto. intros r c Hr Hc. rewrite <- E by assumption. auto. Qed.

  Lemma get_table m R C f r c : table m R C f -> r < R -> c < C -> get F m r c = Ok (f r c).
  Proof. intros [] Hr Hc. unfold get. rewrite t_cell by assumption. reflexivity. Qed.

  Lemma nextAligned_ge n a : n <= nextAlignedSize n a.
  Proof.
    unfold nextAlignedSize. destruct (a =? 0) eqn:E; [lia|]. apply Nat.eqb_neq in E.
    destruct (n mod a =? 0); [lia|]. assert (n mod a < a) by (apply Nat.mod_upper_bound; assumption). lia.
  Qed.

  Lemma new_table R C a : table (matrix_new F zero R C a) R C (fun _ _ => zero).
  Proof.
    pose proof (nextAligned_ge C a). unfold matrix_new. constructor; cbn; auto.
    - rewrite repeat_length. lia.
    - intros r c Hr Hc. assert (r * nextAlignedSize C a + c < nextAlignedSize C a * R) by nia.
      destruct (nth_error _ _) eqn:E.
      + apply nth_error_In, repeat_spec in E. now subst.
      + apply nth_error_None in E. rewrite repeat_length in E. lia.
  Qed.

  Lemma data_write m R C f r l off :
    table m R C f -> r < R -> off + length l <= C ->
    exists d, mem_write (m_data F m) (r * m_stride F m + off) l = Ok d /\
      table (with_data F m d) R C
        (fun r' c' => if (r' =? r) && (off <=? c') && (c' <? off + length l) then nth (c' - off) l zero else f r' c').
  Proof.
    intros [? ? ? ? ?] Hr Hl. destruct (mem_write_ok (m_data F m) (r * m_stride F m + off) l) as (d & E & L & N); [nia|].
    exists d. split; [exact E|]. constructor; cbn [with_data m_rows m_cols m_stride m_data]; auto; [congruence|].
    intros r' c' Hr' Hc'. rewrite N.
    destruct (r' =? r) eqn:Er; cbn [andb].
    - apply Nat.eqb_eq in Er as ->. destruct (off <=? c') eqn:E1; cbn [andb].
      + apply Nat.leb_le in E1. replace (r * m_stride F m + off <=? r * m_stride F m + c') with true by (symmetry; apply Nat.leb_le; lia).
        destruct (c' <? off + length l) eqn:E2.
        * apply Nat.ltb_lt in E2. replace (r * m_stride F m + c' <? r * m_stride F m + off + length l) with true by (symmetry; apply Nat.ltb_lt; lia). cbn [andb].
          replace (r * m_stride F m + c' - (r * m_stride F m + off)) with (c' - off) by lia.
          apply nth_error_nth'. lia.
        * apply Nat.ltb_ge in E2. replace (r * m_stride F m + c' <? r * m_stride F m + off + length l) with false by (symmetry; apply Nat.ltb_ge; lia). cbn [andb]. auto.
      + apply Nat.leb_gt in E1. replace (r * m_stride F m + off <=? r * m_stride F m + c') with false by (symmetry; apply Nat.leb_gt; lia). cbn [andb]. auto.
    - apply Nat.eqb_neq in Er.
      assert (r' < r \/ r < r') as [Hlt|Hlt] by lia.
      + replace (r * m_stride F m + off <=? r' * m_stride F m + c') with false by (symmetry; apply Nat.leb_gt; nia). cbn [andb]. auto.
      + replace (r' * m_stride F m + c' <? r * m_stride F m + off + length l) with false by (symmetry; apply Nat.ltb_ge; nia).
        rewrite Bool.andb_false_r. auto.
  Qed.

  Lemma cell_write m R C f r c x :
    table m R C f -> r < R -> c < C ->
    exists d, mem_write (m_data F m) (r * m_stride F m + c) [x] = Ok d /\
      table (with_data F m d) R C (fun r' c' => if (r' =? r) && (c' =? c) then x else f r' c').
  Proof.
    intros T Hr Hc. destruct (data_write m R C f r [x] c T Hr) as (d & E & T'); [cbn; lia|].
    exists d. split; [exact E|]. eapply table_ext; [exact T'|]. intros r' c' _ _. cbn [length].
    destruct (r' =? r); cbn [andb]; [|reflexivity]. destruct (Nat.eqb_spec c' c) as [->|Hn].
    - rewrite Nat.leb_refl. replace (c <? c + 1) with true by (symmetry; apply Nat.ltb_lt; lia). now rewrite Nat.sub_diag.
    - destruct (c <=? c') eqn:E1; cbn [andb]; [|reflexivity]. apply Nat.leb_le in E1.
      replace (c' <? c + 1) with false by (symmetry; apply Nat.ltb_ge; lia). reflexivity.
  Qed.

  Lemma set_table m R C f r c x :
    table m R C f -> r < R -> c < C ->
    exists m', set F m r c x = Ok m' /\ table m' R C (fun r' c' => if (r' =? r) && (c' =? c) then x else f r' c').
  Proof.
    intros T Hr Hc. destruct (cell_write m R C f r c x T Hr Hc) as (d & E & T'). unfold set. rewrite E. cbn. eauto.
  Qed.

  Lemma set_row_table m R C f r l :
    table m R C f -> r < R -> length l = C ->
    exists m', set_row F m r l = Ok m' /\ table m' R C (fun r' c' => if r' =? r then nth c' l zero else f r' c').
  Proof.
    intros T Hr Hl. destruct (data_write m R C f r l 0 T Hr) as (d & E & T'); [lia|].
    rewrite Nat.add_0_r in E. unfold set_row. rewrite E. cbn. eexists. split; [reflexivity|].
    eapply table_ext; [exact T'|]. intros r' c' _ Hc. cbn beta. change (0 <=? c') with true. rewrite Bool.andb_true_r, Hl, Nat.sub_0_r, Nat.add_0_l.
    replace (c' <? C) with true by (symmetry; apply Nat.ltb_lt; lia). rewrite Bool.andb_true_r. reflexivity.
  Qed.

  Lemma copy_table m rhs R C f g :
    table m R C f -> table rhs R C g -> exists m', copy F m rhs = Ok m' /\ table m' R C g.
  Proof.
    intros T T2. pose proof T as [a1 a2 a3 a4 a5]. pose proof T2 as [b1 b2 b3 b4 b5].
    unfold copy. rewrite a1, a2, b1, b2, !Nat.eqb_refl. cbn.
    destruct (m_stride F rhs =? m_stride F m) eqn:E.
    - apply Nat.eqb_eq in E. unfold mem_read. rewrite b4, E. rewrite (proj2 (Nat.leb_le _ _)) by lia. cbn [bind].
      cbn [skipn]. replace (R * m_stride F m) with (length (m_data F rhs)) by (rewrite b4, E; reflexivity). rewrite firstn_all.
      unfold set_row, mem_write. rewrite b4, a4, E. rewrite (proj2 (Nat.leb_le _ _)) by lia. cbn.
      rewrite skipn_all2 by (rewrite a4; lia). rewrite app_nil_r.
      eexists. split; [reflexivity|]. constructor; cbn; auto; [rewrite b4, E; lia|]. intros. rewrite <- E. auto.
    - destruct (loop_inv (fun k x => table x R C (fun r c => if r <? k then g r c else f r c))
        (fun m' row => l <- mem_read (m_data F rhs) (row * m_stride F rhs) C ;; set_row F m' row l) R m) as (m' & E' & T').
      + eapply table_ext; [exact T|]. reflexivity.
      + intros k s Hk Hs. destruct (mem_read_ok (m_data F rhs) (k * m_stride F rhs) C) as (l & El & Ll & Nl); [nia|].
        rewrite El. cbn [bind]. destruct (set_row_table s R C _ k l Hs Hk Ll) as (m' & E' & T'). exists m'. split; [exact E'|].
        eapply table_ext; [exact T'|]. intros r c Hr Hc. cbn beta. rewrite below_S. destruct (Nat.eqb_spec r k) as [->|Hn]; [|reflexivity].
        apply nth_error_nth. rewrite Nl, (proj2 (Nat.ltb_lt _ _)) by lia. auto.
      + exists m'. split; [exact E'|]. eapply table_ext; [exact T'|]. intros r c Hr _. cbn beta.
        now rewrite (proj2 (Nat.ltb_lt _ _)) by lia.
  Qed.

  (** *** The product *)
  Lemma mix_fold (f g : nat -> F) n :
    fold_left (fun s k => add s (mul (f k) (g k))) (seq 0 n) zero = mix F zero add mul n f g.
  Proof. induction n; [reflexivity|]. rewrite seq_S, fold_left_app, IHn. reflexivity. Qed.
  Lemma mix_ext n f f' g g' :
    (forall k, k < n -> f k = f' k) -> (forall k, k < n -> g k = g' k) -> mix F zero add mul n f g = mix F zero add mul n f' g'.
  Proof. induction n; intros H H'; cbn; [reflexivity|]. rewrite IHn, H, H' by auto. reflexivity. Qed.

  Lemma product_cell_ok a b R n C f g row col :
    table a R n f -> table b n C g -> row < R -> col < C ->
    product_cell F zero add mul (m_data F a) (m_data F b) (m_stride F a) (m_stride F b) n row col
    = Ok (mix F zero add mul n (f row) (fun k => g k col)).
  Proof.
    intros Ta Tb Hr Hc. unfold product_cell.
    destruct (loop_inv (fun k v => v = mix F zero add mul k (f row) (fun k => g k col))
       (fun v k => x <- match nth_error (m_data F a) (row * m_stride F a + k) with Some x => Ok x | None => UB end ;;
                   y <- match nth_error (m_data F b) (col + k * m_stride F b) with Some y => Ok y | None => UB end ;;
                   Ok (add v (mul x y))) n zero) as (v & E & ->); [reflexivity| |exact E].
    intros k v Hk ->. rewrite (t_cell _ _ _ _ _ Ta) by assumption. cbn.
    rewrite (Nat.add_comm col), (t_cell _ _ _ _ _ Tb) by assumption. cbn. eauto.
  Qed.

  Lemma with_data_twice (m : matrix) d d' : with_data F (with_data F m d) d' = with_data F m d'.
  Proof. reflexivity. Qed.

  Lemma product_table a b o R n C f g h :
    table a R n f -> table b n C g -> table o R C h ->
    exists d, product F zero add mul (m_data F a) (m_data F b) (m_data F o) R C n (m_stride F a) (m_stride F b) (m_stride F o) = Ok d /\
      table (with_data F o d) R C (fun i j => mix F zero add mul n (f i) (fun k => g k j)).
  Proof.
    intros Ta Tb To. unfold product.
    destruct (loop_inv (fun k d => table (with_data F o d) R C
                (fun i j => if i <? k then mix F zero add mul n (f i) (fun k => g k j) else h i j))
      (fun out row => fold_left (fun r col => out <- r ;;
        v <- product_cell F zero add mul (m_data F a) (m_data F b) (m_stride F a) (m_stride F b) n row col ;;
        mem_write out (row * m_stride F o + col) [v]) (seq 0 C) (Ok out)) R (m_data F o)) as (d & E & T).
    - destruct o. exact To.
    - intros row d Hrow Hd.
      destruct (loop_inv (fun k d => table (with_data F o d) R C
                (fun i j => if (i <? row) || (i =? row) && (j <? k) then mix F zero add mul n (f i) (fun k => g k j) else h i j))
        (fun out col => v <- product_cell F zero add mul (m_data F a) (m_data F b) (m_stride F a) (m_stride F b) n row col ;;
        mem_write out (row * m_stride F o + col) [v]) C d) as (d' & E' & T').
      + eapply table_ext; [exact Hd|]. intros i j _ _. cbn. rewrite Bool.andb_false_r, Bool.orb_false_r. reflexivity.
      + intros col d' Hcol Hd'. rewrite (product_cell_ok a b R n C f g) by assumption. cbn [bind].
        destruct (cell_write (with_data F o d') R C _ row col (mix F zero add mul n (f row) (fun k => g k col)) Hd' Hrow Hcol) as (d2 & E2 & T2).
        exists d2. split; [exact E2|]. rewrite with_data_twice in T2. eapply table_ext; [exact T2|].
        intros i j _ _. cbn beta. rewrite below_S_bool.
        destruct (Nat.eqb_spec i row) as [->|Hn], (Nat.eqb_spec j col) as [->|Hn']; cbn [andb orb]; rewrite ?Bool.orb_true_r; try reflexivity.
      + exists d'. split; [exact E'|]. eapply table_ext; [exact T'|]. intros i j _ Hj. cbn beta. rewrite below_S.
        rewrite (proj2 (Nat.ltb_lt _ _) Hj), Bool.andb_true_r, Bool.orb_comm. destruct (Nat.eqb i row) eqn:Ei, (i <? row); reflexivity.
    - exists d. split; [exact E|]. eapply table_ext; [exact T|]. intros i j Hi _. cbn beta.
      now rewrite (proj2 (Nat.ltb_lt _ _)) by lia.
  Qed.

  (** *** AllRAD *)
  Notation origin := ((zero, zero, zero) : pos F).
  Definition coordinate (c : nat) (p : pos F) : F :=
    let '(x, y, z) := p in match c with 0 => x | 1 => y | _ => z end.
  Notation decoder := (decoder F zero add mul vbap).

  Record shaped (positions : list (pos F)) (H : nat) (D : nat -> nat -> F) (l : pos F) (a : allrad F) : Prop := Shaped {
    s_positions : table (r_positions F a) (length positions) 3 (fun r c => coordinate c (nth r positions origin));
    s_listener : r_listener F a = l;
    s_harmonics : r_harmonics F a = H;
    s_size : r_size F a = length positions;
    s_coefficients : table (r_coefficients F a) H (length positions) D;
    s_transfer : exists f, table (r_transfer F a) (length positions) real f;
    s_decode : exists f, table (r_decode F a) H real f
  }.

  Hypothesis vbap_length : forall l p, length (vbap l p) = real.

  Lemma update_ok positions H D l a :
    shaped positions H D l a ->
    exists a', updateDecodingCoefficients F zero add mul vbap a = Ok a' /\ shaped positions H D l a' /\
      table (r_decode F a') H real (decoder positions D l).
  Proof.
    intros [Tp El Eh Es Tc [ft Tt] [fd Td]]. unfold updateDecodingCoefficients. rewrite Es.
    destruct (loop_inv (fun k t => table t (length positions) real
                (fun r c => if r <? k then nth c (vbap l (nth r positions origin)) zero else ft r c))
      (fun t spk => x <- get F (r_positions F a) spk 0 ;; y <- get F (r_positions F a) spk 1 ;; z <- get F (r_positions F a) spk 2 ;;
           set_row F t spk (vbap (r_listener F a) (x, y, z))) (length positions) (r_transfer F a)) as (t & E & T).
    - eapply table_ext; [exact Tt|]. reflexivity.
    - intros k t Hk T. rewrite !(get_table _ _ _ _ k _ Tp) by lia. cbn [bind].
      destruct (set_row_table t _ _ _ k (vbap (r_listener F a)
        (coordinate 0 (nth k positions origin), coordinate 1 (nth k positions origin), coordinate 2 (nth k positions origin))) T Hk (vbap_length _ _))
        as (t' & E' & T').
      exists t'. split; [exact E'|]. eapply table_ext; [exact T'|]. intros r c Hr Hc. cbn beta. rewrite below_S.
      destruct (Nat.eqb_spec r k) as [->|]; [|reflexivity]. rewrite El. destruct (nth k positions origin) as [[x y] z]. reflexivity.
    - rewrite E. cbn [bind]. rewrite Eh. rewrite (t_cols _ _ _ _ _ Td).
      destruct (product_table _ _ _ _ _ _ _ _ _ Tc T Td) as (d & Ed & Td'). rewrite Ed. cbn [bind].
      assert (Td2 : table (with_data F (r_decode F a) d) H real (decoder positions D l)).
      { eapply table_ext; [exact Td'|]. intros i j Hi Hj. unfold HoaSpec.decoder. apply mix_ext; [reflexivity|].
        intros k Hk. cbn beta. now rewrite (proj2 (Nat.ltb_lt _ _) Hk). }
      eexists. split; [reflexivity|]. split; [|exact Td2]. constructor; cbn; auto; eexists; [exact T|exact Td2].
  Qed.

  Lemma set_listener_ok positions H D l p a :
    shaped positions H D l a ->
    exists a', set_listener F zero add mul vbap a p = Ok a' /\ shaped positions H D p a' /\
      table (r_decode F a') H real (decoder positions D p).
  Proof. intros [Tp El Eh Es Tc Tt Td]. unfold set_listener. apply update_ok. constructor; cbn; auto. Qed.

  Lemma store_ok (a : array F) alignment :
    a_regular F a <= length (a_positions F a) ->
    exists m, store_positions F a (matrix_new F zero (a_regular F a) 3 alignment) = Ok m /\
      table m (a_regular F a) 3 (fun r c => coordinate c (nth r (a_positions F a) origin)).
  Proof.
    intros Hn. unfold store_positions.
    destruct (loop_inv (fun k t => table t (a_regular F a) 3
                (fun r c => if r <? k then coordinate c (nth r (a_positions F a) origin) else zero))
      (fun m spk => match nth_error (a_positions F a) spk with
        | Some (x, y, z) => m1 <- set F m spk 0 x ;; m2 <- set F m1 spk 1 y ;; set F m2 spk 2 z
        | None => UB
        end) (a_regular F a) (matrix_new F zero (a_regular F a) 3 alignment)) as (t & E & T).
    - apply new_table.
    - intros k t Hk T. rewrite (nth_error_nth' _ origin) by lia. destruct (nth k (a_positions F a) origin) as [[x y] z] eqn:Ep.
      destruct (set_table t _ _ _ k 0 x T Hk ltac:(lia)) as (t1 & E1 & T1). rewrite E1. cbn [bind].
      destruct (set_table t1 _ _ _ k 1 y T1 Hk ltac:(lia)) as (t2 & E2 & T2). rewrite E2. cbn [bind].
      destruct (set_table t2 _ _ _ k 2 z T2 Hk ltac:(lia)) as (t3 & E3 & T3). exists t3. split; [exact E3|].
      eapply table_ext; [exact T3|]. intros r c Hr Hc. cbn beta. rewrite below_S.
      destruct (Nat.eqb_spec r k) as [->|]; cbn [andb]; [|reflexivity]. rewrite Ep.
      destruct c as [|[|[|]]]; [reflexivity..|lia].
    - exists t. split; [exact E|]. eapply table_ext; [exact T|]. intros r c Hr _. cbn beta.
      now rewrite (proj2 (Nat.ltb_lt _ _)) by lia.
  Qed.

  Lemma allrad_new_ok (a : array F) coeffs alignment order D :
    a_regular F a = length (a_positions F a) ->
    table coeffs ((order + 1) * (order + 1)) (length (a_positions F a)) D ->
    exists r, allrad_new F zero add mul real vbap a coeffs alignment order = Ok r /\
      shaped (a_positions F a) ((order + 1) * (order + 1)) D origin r /\
      table (r_decode F r) ((order + 1) * (order + 1)) real (decoder (a_positions F a) D origin).
  Proof.
    intros Hr T. unfold allrad_new, getNumSpeakers. rewrite (t_rows _ _ _ _ _ T), (t_cols _ _ _ _ _ T), !Nat.eqb_refl. cbn [negb].
    destruct (store_ok a alignment) as (m & E & Tm); [lia|]. rewrite E. cbn [bind].
    destruct (copy_table _ coeffs _ _ _ D (new_table ((order + 1) * (order + 1)) (length (a_positions F a)) alignment) T) as (c & Ec & Tc).
    rewrite Ec. cbn [bind]. apply update_ok. rewrite Hr in Tm.
    constructor; cbn [r_positions r_listener r_harmonics r_size r_coefficients r_transfer r_decode]; auto; eexists; apply new_table.
  Qed.

  (** with virtual loudspeakers in the regular array, their positions are read beyond the matrix *)
  Lemma allrad_new_virtual (a : array F) coeffs alignment order D :
    a_regular F a < length (a_positions F a) ->
    table coeffs ((order + 1) * (order + 1)) (length (a_positions F a)) D ->
    allrad_new F zero add mul real vbap a coeffs alignment order = UB.
  Proof.
    intros Hr T. unfold allrad_new, getNumSpeakers. rewrite (t_rows _ _ _ _ _ T), (t_cols _ _ _ _ _ T), !Nat.eqb_refl. cbn [negb].
    destruct (store_ok a alignment) as (m & E & Tm); [lia|]. rewrite E. cbn [bind].
    destruct (copy_table _ coeffs _ _ _ D (new_table ((order + 1) * (order + 1)) (length (a_positions F a)) alignment) T) as (c & Ec & Tc).
    rewrite Ec. cbn [bind]. unfold updateDecodingCoefficients. cbn [r_positions r_listener r_harmonics r_size r_coefficients r_transfer r_decode].
    set (n := a_regular F a) in *. set (size := length (a_positions F a)) in *.
    set (step := fun t spk => x <- get F m spk 0 ;; y <- get F m spk 1 ;; z <- get F m spk 2 ;; set_row F t spk (vbap origin (x, y, z))).
    assert (Hu : fold_left (fun r spk => t <- r ;; step t spk) (seq 0 size) (Ok (matrix_new F zero size real alignment)) = UB).
    { replace size with (n + S (size - S n)) at 1 by lia. rewrite seq_app, fold_left_app. cbn [seq fold_left plus].
      destruct (loop_inv (fun _ t => exists f, table t size real f) step n (matrix_new F zero size real alignment)) as (t & Et & Tt).
      - eexists. apply new_table.
      - intros k t Hk [f Tf]. unfold step. rewrite !(get_table _ _ _ _ k _ Tm) by lia. cbn [bind].
        match goal with |- context [vbap ?l ?p] => destruct (set_row_table t _ _ _ k (vbap l p) Tf ltac:(lia) (vbap_length _ _)) as (t' & E' & T') end.
        exists t'. split; [exact E'|eauto].
      - rewrite Et. cbn [bind]. assert (step t n = UB) as ->.
        { unfold step, get at 1. rewrite (proj2 (nth_error_None _ _)); [reflexivity|]. rewrite (t_length _ _ _ _ _ Tm). lia. }
        generalize (seq (S n) (size - S n)). intros l. induction l; [reflexivity|]. assumption. }
    unfold step in Hu. rewrite Hu. reflexivity.
  Qed.

  (** *** The gain calculator *)
  Lemma square_root n :
    ((Nat.sqrt_up n - 1 + 1) * (Nat.sqrt_up n - 1 + 1) =? n) && negb (n =? 0) = true <-> exists k, n = (k + 1) * (k + 1).
  Proof.
    split.
    - intros H. apply andb_prop in H as [H _]. apply Nat.eqb_eq in H. exists (Nat.sqrt_up n - 1). lia.
    - intros [k E]. assert (Nat.sqrt_up n = k + 1) as ->.
      { rewrite E. apply Nat.sqrt_up_square. lia. }
      replace (k + 1 - 1) with k by lia. rewrite <- E, Nat.eqb_refl. cbn. destruct (Nat.eqb_spec n 0); [nia|reflexivity].
  Qed.

  Definition ready (positions : list (pos F)) (H C : nat) (D : nat -> nat -> F) (l : pos F) (h : hoa F) : Prop :=
    shaped positions H D l (h_allrad F h) /\ table (r_decode F (h_allrad F h)) H real (decoder positions D l) /\
    exists f, table (h_output F h) real C f.

  Notation hoa_new := (hoa_new F zero add mul real vbap).

  Lemma hoa_new_ok C (a : array F) dm alignment l R D :
    a_regular F a = length (a_positions F a) ->
    table dm R (length (a_positions F a)) D -> (exists k, R = (k + 1) * (k + 1)) ->
    exists h, hoa_new C a dm alignment l = Ok h /\ ready (a_positions F a) R C D l h.
  Proof.
    intros Hr T K. pose proof (proj2 (square_root R) K) as HK. unfold HoaModel.hoa_new. rewrite (t_rows _ _ _ _ _ T), (t_cols _ _ _ _ _ T).
    apply andb_prop in HK as [K1 K2]. rewrite K1. apply Bool.negb_true_iff in K2. rewrite K2. cbn [negb orb].
    unfold getNumSpeakers at 1. rewrite Nat.eqb_refl. cbn [negb]. rewrite Hr.
    destruct (copy_table _ dm _ _ _ D (new_table R (length (a_positions F a)) alignment) T) as (c & Ec & Tc). rewrite Ec. cbn [bind].
    apply Nat.eqb_eq in K1. rewrite <- K1 in Tc.
    destruct (allrad_new_ok a c alignment _ D Hr Tc) as (r & Er & Sr & _). rewrite Er. cbn [bind].
    destruct (set_listener_ok _ _ _ _ l _ Sr) as (r' & Er' & Sr' & Tr'). rewrite Er'. cbn [bind].
    eexists. split; [reflexivity|]. rewrite K1 in *. split; [exact Sr'|]. split; [exact Tr'|]. eexists. apply new_table.
  Qed.

  Lemma hoa_new_throw C (a : array F) dm alignment l R S' D :
    table dm R S' D ->
    ~ ((exists k, R = (k + 1) * (k + 1)) /\ S' = length (a_positions F a) /\ a_regular F a = length (a_positions F a)) ->
    hoa_new C a dm alignment l = Throw InvalidArgument.
  Proof.
    intros T N. unfold HoaModel.hoa_new. rewrite (t_rows _ _ _ _ _ T), (t_cols _ _ _ _ _ T).
    destruct (negb _ || _) eqn:K; [reflexivity|]. apply Bool.orb_false_iff in K as [K1 K2]. apply Bool.negb_false_iff in K1.
    assert (exists k, R = (k + 1) * (k + 1)) as HK.
    { apply square_root. now rewrite K1, K2. }
    unfold getNumSpeakers at 1. destruct (Nat.eqb_spec S' (length (a_positions F a))) as [ES|]; [|reflexivity]. cbn [negb].
    unfold copy. cbn [matrix_new m_rows m_cols m_stride m_data]. rewrite (t_rows _ _ _ _ _ T), (t_cols _ _ _ _ _ T).
    destruct (Nat.eqb_spec (a_regular F a) S') as [ER|]; [|rewrite Bool.orb_true_r; reflexivity].
    exfalso. apply N. repeat split; [exact HK|exact ES|congruence].
  Qed.

  Lemma find_app_first {T} (p : T -> bool) l l' :
    find p (l ++ l') = match find p l with Some x => Some x | None => find p l' end.
  Proof. induction l; cbn; [reflexivity|]. destruct (p a); auto. Qed.
  Lemma owner_app l l' ch : owner (l ++ l') ch = match owner l' ch with Some s => Some s | None => owner l ch end.
  Proof. unfold owner. rewrite rev_app_distr, find_app_first. destruct (find _ (rev l')); reflexivity. Qed.
  Notation overlay := (overlay F).
  Lemma overlay_app l l' g f spk ch : overlay (l ++ l') g f spk ch = overlay l' g (overlay l g f) spk ch.
  Proof. unfold HoaSpec.overlay. rewrite owner_app. destruct (owner l' ch); reflexivity. Qed.
  Lemma overlay_nil g f spk ch : overlay [] g f spk ch = f spk ch.
  Proof. reflexivity. Qed.

  Lemma column_ok gains out H C f g sig ch :
    table gains H real g -> table out real C f -> sig < H -> ch < C ->
    exists out', fold_left (fun r spk => o <- r ;; x <- get F gains sig spk ;; set F o spk ch x) (seq 0 (m_rows F out)) (Ok out) = Ok out' /\
      table out' real C (overlay [(ch, sig)] g f).
  Proof.
    intros Tg To Hs Hc. rewrite (t_rows _ _ _ _ _ To).
    destruct (loop_inv (fun k o => table o real C (fun r c => if (r <? k) && (c =? ch) then g sig r else f r c))
      (fun o spk => x <- get F gains sig spk ;; set F o spk ch x) real out) as (o & E & T).
    - eapply table_ext; [exact To|]. reflexivity.
    - intros k o Hk T. rewrite (get_table _ _ _ _ _ _ Tg) by lia. cbn [bind].
      destruct (set_table o _ _ _ k ch (g sig k) T Hk Hc) as (o' & E' & T'). exists o'. split; [exact E'|].
      eapply table_ext; [exact T'|]. intros r c Hr Hc'. cbn beta. rewrite below_S_bool.
      destruct (Nat.eqb_spec r k) as [->|], (Nat.eqb_spec c ch) as [->|]; cbn [andb orb]; rewrite ?Bool.andb_false_r, ?Bool.andb_true_r; reflexivity.
    - exists o. split; [exact E|]. eapply table_ext; [exact T|]. intros r c Hr Hc'. cbn beta.
      rewrite (proj2 (Nat.ltb_lt _ _) Hr). cbn [andb]. unfold HoaSpec.overlay, owner. cbn. rewrite (Nat.eqb_sym ch c).
      destruct (c =? ch); reflexivity.
  Qed.

  Lemma signals_ok gains H C g (good : list nat) : forall rest sig out f,
    table gains H real g -> table out real C f -> sig + length good <= H -> Forall (fun ch => ch < C) good ->
    exists out', decode_signals F gains out sig (good ++ rest) = decode_signals F gains out' (sig + length good) rest /\
      table out' real C (overlay (combine good (seq sig (length good))) g f).
  Proof.
    induction good as [|ch good IH]; intros rest sig out f Tg To Hl Hc; cbn [length app] in *.
    - exists out. rewrite Nat.add_0_r. split; [reflexivity|]. eapply table_ext; [exact To|]. reflexivity.
    - inversion Hc as [|? ? H1 H2]; subst. cbn [decode_signals]. rewrite (t_cols _ _ _ _ _ To), (proj2 (Nat.leb_gt _ _)) by lia.
      destruct (column_ok gains out H C f g sig ch Tg To ltac:(lia) H1) as (o & E & T). rewrite E. cbn [bind].
      destruct (IH rest (S sig) o _ Tg T ltac:(lia) H2) as (o' & E' & T'). exists o'.
      replace (sig + S (length good)) with (S sig + length good) by lia. split; [exact E'|].
      eapply table_ext; [exact T'|]. intros r c _ _. cbn [seq combine]. rewrite <- overlay_app. reflexivity.
  Qed.

  Lemma complete_check (chs : list nat) order :
    (0 <= order < 65535)%Z ->
    ((Z.of_nat (length chs) =? (((order + 1) mod word32) * ((order + 1) mod word32)) mod word32)%Z = true <->
     (Z.of_nat (length chs) = (order + 1) * (order + 1))%Z).
  Proof.
    intros Ho. rewrite Z.eqb_eq. change word32 with 4294967296%Z.
    rewrite (Z.mod_small (order + 1)) by lia. rewrite Z.mod_small by nia. reflexivity.
  Qed.

  Lemma objects_ok gains H C g pre : forall rest out f,
    table gains H real g -> table out real C f -> Forall (fits C H) pre ->
    exists out', decode_objects F gains out (pre ++ rest) = decode_objects F gains out' rest /\
      table out' real C (overlay (signals pre) g f).
  Proof.
    induction pre as [|o pre IH]; intros rest out f Tg To Hf; cbn [app].
    - exists out. split; [reflexivity|exact To].
    - inversion Hf as [|? ? H1 H2]; subst. destruct o as [chs order|]; cbn [decode_objects].
      + destruct H1 as ([Ho Hn] & Hc & Hl). rewrite (proj2 (complete_check chs order Ho) Hn). cbn [negb].
        destruct (signals_ok gains H C g chs [] 0 out f Tg To ltac:(lia) Hc) as (o' & E' & T').
        rewrite app_nil_r in E'. rewrite E'. cbn.
        destruct (IH rest o' _ Tg T' H2) as (o2 & E2 & T2). exists o2. split; [exact E2|].
        eapply table_ext; [exact T2|]. intros r c _ _. unfold signals; cbn [map concat]. now rewrite overlay_app.
      + apply (IH rest out f Tg To H2).
  Qed.

  (** objects with not more signals than the decoder never give undefined behaviour *)
  Lemma signals_total gains H C g (chs : list nat) : forall sig out f,
    table gains H real g -> table out real C f -> sig + length chs <= H ->
    exists out' ok f', decode_signals F gains out sig chs = Ok (out', ok) /\ table out' real C f'.
  Proof.
    induction chs as [|ch chs IH]; intros sig out f Tg To Hl; cbn [length decode_signals] in *; [eauto|].
    rewrite (t_cols _ _ _ _ _ To). destruct (Nat.leb_spec C ch); [eauto|].
    destruct (column_ok gains out H C f g sig ch Tg To ltac:(lia) ltac:(lia)) as (o & E & T). rewrite E. cbn [bind].
    apply (IH (S sig) o _ Tg T). lia.
  Qed.
  Lemma objects_total gains H C g objects : forall out f,
    table gains H real g -> table out real C f -> Forall (small H) objects ->
    exists out' ok f', decode_objects F gains out objects = Ok (out', ok) /\ table out' real C f'.
  Proof.
    induction objects as [|o objects IH]; intros out f Tg To Hs; cbn [decode_objects]; [eauto|].
    inversion Hs as [|? ? H1 H2]; subst. destruct o as [chs order|]; [|eauto].
    destruct (negb _); [eauto|].
    destruct (signals_total gains H C g chs 0 out f Tg To H1) as (o & ok & f' & E & T). rewrite E. cbn [bind].
    destruct ok; eauto.
  Qed.

  (** *** process() *)
  Notation process := (process F zero add mul vbap).
  Definition listener_after (l : pos F) (c : option (pos F)) : pos F := match c with Some p => p | None => l end.

  Lemma process_begin positions H C D l h changed input f objects :
    ready positions H C D l h -> table input real C f ->
    exists a out, process h changed input objects
        = (' (out', ok) <- decode_objects F (r_decode F a) out objects ;; Ok (Hoa F a out', ok)) /\
      shaped positions H D (listener_after l changed) a /\
      table (r_decode F a) H real (decoder positions D (listener_after l changed)) /\ table out real C f.
  Proof.
    intros (Sh & Td & fo & To) Ti. unfold HoaModel.process.
    destruct (copy_table _ _ _ _ _ _ To Ti) as (out & Eo & Tout).
    destruct changed as [p|]; cbn [listener_after].
    - destruct (set_listener_ok _ _ _ _ p _ Sh) as (a & Ea & Sa & Ta). rewrite Ea. cbn [bind]. rewrite Eo. cbn [bind].
      exists a, out. auto.
    - cbn [bind]. rewrite Eo. cbn [bind]. exists (h_allrad F h), out. auto.
  Qed.

  Lemma process_total positions H C D l h changed input f objects :
    ready positions H C D l h -> table input real C f -> Forall (small H) objects ->
    exists h' ok, process h changed input objects = Ok (h', ok) /\ ready positions H C D (listener_after l changed) h'.
  Proof.
    intros R Ti Hs. destruct (process_begin _ _ _ _ _ _ changed _ _ objects R Ti) as (a & out & E & Sa & Ta & To). rewrite E.
    destruct (objects_total _ _ _ _ objects out f Ta To Hs) as (out' & ok & f' & E' & T'). rewrite E'. cbn.
    eexists _, _. split; [reflexivity|]. split; [exact Sa|]. split; [exact Ta|]. eauto.
  Qed.

  Lemma process_ok positions H C D l h changed input f objects :
    ready positions H C D l h -> table input real C f -> Forall (fits C H) objects ->
    exists h', process h changed input objects = Ok (h', true) /\
      table (h_output F h') real C (overlay (signals objects) (decoder positions D (listener_after l changed)) f).
  Proof.
    intros R Ti Hs. destruct (process_begin _ _ _ _ _ _ changed _ _ objects R Ti) as (a & out & E & Sa & Ta & To). rewrite E.
    destruct (objects_ok _ _ _ _ objects [] out f Ta To Hs) as (out' & E' & T'). rewrite app_nil_r in E'. rewrite E'. cbn.
    eexists. split; [reflexivity|exact T'].
  Qed.

  (** an object with the wrong number of signals *)
  Lemma process_incomplete positions H C D l h changed input f pre chs order post :
    ready positions H C D l h -> table input real C f -> Forall (fits C H) pre ->
    (0 <= order < 65535)%Z -> ~ complete chs order ->
    exists h', process h changed input (pre ++ HoaSource chs order :: post) = Ok (h', false) /\
      table (h_output F h') real C (overlay (signals pre) (decoder positions D (listener_after l changed)) f).
  Proof.
    intros R Ti Hs Ho Hn. destruct (process_begin _ _ _ _ _ _ changed _ _ (pre ++ HoaSource chs order :: post) R Ti) as (a & out & E & Sa & Ta & To). rewrite E.
    destruct (objects_ok _ _ _ _ pre (HoaSource chs order :: post) out f Ta To Hs) as (out' & E' & T'). rewrite E'. cbn [decode_objects].
    destruct (Z.eqb _ _) eqn:K; [apply complete_check in K; [exfalso; apply Hn; split; assumption|exact Ho]|]. cbn.
    eexists. split; [reflexivity|exact T'].
  Qed.

  (** an object with a channel that does not exist *)
  Lemma process_range positions H C D l h changed input f pre (good : list nat) bad rest order post :
    ready positions H C D l h -> table input real C f -> Forall (fits C H) pre ->
    complete (good ++ bad :: rest) order -> Forall (fun ch => ch < C) good -> C <= bad -> length good <= H ->
    exists h', process h changed input (pre ++ HoaSource (good ++ bad :: rest) order :: post) = Ok (h', false) /\
      table (h_output F h') real C
        (overlay (signals pre ++ combine good (seq 0 (length good))) (decoder positions D (listener_after l changed)) f).
  Proof.
    intros R Ti Hs [Ho Hn] Hg Hb Hl.
    destruct (process_begin _ _ _ _ _ _ changed _ _ (pre ++ HoaSource (good ++ bad :: rest) order :: post) R Ti) as (a & out & E & Sa & Ta & To). rewrite E.
    destruct (objects_ok _ _ _ _ pre (HoaSource (good ++ bad :: rest) order :: post) out f Ta To Hs) as (out' & E' & T'). rewrite E'. cbn [decode_objects].
    rewrite (proj2 (complete_check _ order Ho) Hn). cbn [negb].
    destruct (signals_ok _ H C _ good (bad :: rest) 0 out' _ Ta T' Hl Hg) as (o2 & E2 & T2). rewrite E2. cbn [decode_signals].
    rewrite (t_cols _ _ _ _ _ T2), (proj2 (Nat.leb_le _ _) Hb). cbn. eexists. split; [reflexivity|]. cbn [h_output].
    eapply table_ext; [exact T2|]. intros r c _ _. now rewrite overlay_app.
  Qed.

  (** an object of higher order than the decoder: the matrix of the gains is read beyond its end *)
  Lemma process_ub positions H C D l h changed input f pre chs order post :
    ready positions H C D l h -> table input real C f -> Forall (fits C H) pre ->
    complete chs order -> Forall (fun ch => ch < C) chs -> H < length chs -> 0 < real ->
    process h changed input (pre ++ HoaSource chs order :: post) = UB.
  Proof.
    intros R Ti Hs [Ho Hn] Hc Hl Hr.
    destruct (process_begin _ _ _ _ _ _ changed _ _ (pre ++ HoaSource chs order :: post) R Ti) as (a & out & E & Sa & Ta & To). rewrite E.
    destruct (objects_ok _ _ _ _ pre (HoaSource chs order :: post) out f Ta To Hs) as (out' & E' & T'). rewrite E'. cbn [decode_objects].
    rewrite (proj2 (complete_check _ order Ho) Hn). cbn [negb].
    assert (Lf : length (firstn H chs) = H) by (rewrite firstn_length; lia).
    destruct (signals_ok _ H C _ (firstn H chs) (skipn H chs) 0 out' _ Ta T') as (o2 & E2 & T2).
    { lia. }
    { rewrite Forall_forall in *. intros x Hx. apply Hc. rewrite <- (firstn_skipn H chs). apply in_or_app. auto. }
    rewrite firstn_skipn in E2. rewrite E2, Lf. cbn [plus].
    assert (Hsk : Forall (fun ch => ch < C) (skipn H chs)).
    { rewrite Forall_forall in *. intros x Hx. apply Hc. rewrite <- (firstn_skipn H chs). apply in_or_app. auto. }
    destruct (skipn H chs) as [|ch tl] eqn:K.
    { apply (f_equal (@length _)) in K. rewrite skipn_length in K. cbn in K. lia. }
    inversion Hsk; subst. cbn [decode_signals]. rewrite (t_cols _ _ _ _ _ T2), (proj2 (Nat.leb_gt _ _)) by lia.
    rewrite (t_rows _ _ _ _ _ T2). destruct real as [|n]; [lia|]. cbn [seq fold_left bind]. unfold get at 2.
    rewrite (proj2 (nth_error_None _ _)) by (rewrite (t_length _ _ _ _ _ Ta); lia). cbn [bind].
    generalize (seq 1 n). intros ls. induction ls; cbn; [reflexivity|]. exact IHls.
  Qed.
End HoaProofs.

(** *** Diffuse gains *)
Section Diffuse.
  Variable F : Type.
  Variables (zero one : F).

  Lemma diffuse_nth C objects ch :
    ch < C ->
    length (fold_left (diffuse_object F zero one C) objects (repeat zero C)) = C /\
    nth_error (fold_left (diffuse_object F zero one C) objects (repeat zero C)) ch
    = Some (match mono F objects ch with Some t => diffuseness F zero one t | None => zero end).
  Proof.
    intros Hc. induction objects as [|o objects [IHl IHn]] using rev_ind.
    - cbn. rewrite repeat_length. split; [reflexivity|]. rewrite (nth_error_nth' _ zero) by (now rewrite repeat_length).
      f_equal. apply nth_repeat.
    - rewrite fold_left_app. cbn [fold_left]. set (g := fold_left _ objects _) in *.
      unfold mono. rewrite rev_app_distr. cbn [rev app find]. destruct o as [chs t]. unfold diffuse_object. cbn [fst snd].
      destruct chs as [|c [|c' chs]]; [split; assumption| |split; assumption].
      destruct (Nat.leb_spec C c) as [Hle|Hlt].
      + replace (c =? ch) with false by (symmetry; apply Nat.eqb_neq; lia). split; assumption.
      + split.
        * rewrite app_length. cbn [length]. rewrite firstn_length, skipn_length. lia.
        * destruct (Nat.eqb_spec c ch) as [->|Hn].
          -- rewrite nth_error_app2 by (rewrite firstn_length; lia). rewrite firstn_length, IHl, Nat.min_l, Nat.sub_diag by lia.
             cbn. destruct t; reflexivity.
          -- fold (mono F objects ch). rewrite <- IHn.
             destruct (Nat.lt_ge_cases ch c) as [Hl|Hl].
             ++ rewrite nth_error_app1 by (rewrite firstn_length; lia). rewrite nth_error_firstn.
                replace (ch <? c) with true by (symmetry; apply Nat.ltb_lt; lia). reflexivity.
             ++ rewrite nth_error_app2 by (rewrite firstn_length; lia). rewrite firstn_length, IHl, Nat.min_l by lia.
                destruct (ch - c) eqn:K; [lia|]. cbn [nth_error]. rewrite nth_error_skipn. f_equal. lia.
  Qed.
End Diffuse.
