(** Proofs about the wrappers of the signal flows. *)
From Coq Require Import ZArith.
From Verif Require Import Base Memory HostModel HostSpec.

(** *** Strided access *)
Section Strided.
  Context {B : Type}.
  Lemma read_strided_ok (mem : list B) stride n : forall off,
    (forall i, i < n -> off + i * stride < length mem) ->
    exists xs, read_strided mem off stride n = Ok xs /\ length xs = n
      /\ forall i, i < n -> nth_error xs i = nth_error mem (off + i * stride).
  Proof.
    induction n as [|n IH]; intros off H; cbn [read_strided].
    - exists []. split; [reflexivity|]. split; [reflexivity|]. intros; lia.
    - destruct (nth_error_lt mem off) as (x & E). { specialize (H 0 ltac:(lia)). lia. } rewrite E.
      destruct (IH (off + stride)) as (xs & -> & L & N).
      { intros i Hi. specialize (H (S i) ltac:(lia)). cbn in H. lia. }
      exists (x :: xs). split; [reflexivity|]. split; [cbn; lia|]. intros [|i] Hi; cbn [nth_error].
      + rewrite Nat.add_0_r. symmetry. exact E.
      + rewrite N by lia. f_equal. cbn. lia.
  Qed.
  Lemma write_at_ok (mem : list B) : forall k x, k < length mem ->
    exists mem', write_at mem k x = Ok mem' /\ length mem' = length mem
      /\ forall j, nth_error mem' j = if j =? k then Some x else nth_error mem j.
  Proof.
    induction mem as [|y mem IH]; intros k x H; cbn in H; [lia|]. destruct k as [|k]; cbn [write_at].
    - eexists. split; [reflexivity|]. split; [reflexivity|]. intros [|j]; reflexivity.
    - destruct (IH k x ltac:(lia)) as (m' & -> & L & N). cbn [bind]. eexists. split; [reflexivity|].
      split; [cbn; lia|]. intros [|j]; [reflexivity|]. exact (N j).
  Qed.
  Lemma write_strided_ok stride (xs : list B) : 0 < stride -> forall mem off,
    (forall i, i < length xs -> off + i * stride < length mem) ->
    exists mem', write_strided mem off stride xs = Ok mem' /\ length mem' = length mem
      /\ (forall i, i < length xs -> nth_error mem' (off + i * stride) = nth_error xs i)
      /\ (forall j, (forall i, i < length xs -> j <> off + i * stride) -> nth_error mem' j = nth_error mem j).
  Proof.
    intros Hs. induction xs as [|x xs IH]; intros mem off H; cbn [write_strided].
    - exists mem. split; [reflexivity|]. split; [reflexivity|]. split; [cbn; intros; lia|]. reflexivity.
    - destruct (write_at_ok mem off x) as (m1 & -> & L1 & N1). { specialize (H 0 ltac:(cbn; lia)). lia. } cbn [bind].
      destruct (IH m1 (off + stride)) as (m2 & -> & L2 & N2 & O2).
      { intros i Hi. rewrite L1. specialize (H (S i) ltac:(cbn; lia)). cbn in H. lia. }
      exists m2. split; [reflexivity|]. split; [congruence|]. split.
      + intros [|i] Hi; cbn [nth_error].
        * rewrite O2. { rewrite N1, Nat.mul_0_l, Nat.add_0_r, Nat.eqb_refl. reflexivity. }
          intros i _. rewrite Nat.mul_0_l. lia.
        * cbn in Hi. rewrite <- (N2 i) by lia. f_equal. cbn. lia.
      + intros j Hj. rewrite O2.
        * rewrite N1. destruct (Nat.eqb_spec j off) as [->|_]; [|reflexivity]. destruct (Hj 0 ltac:(cbn; lia)). lia.
        * intros i Hi. specialize (Hj (S i) ltac:(cbn; lia)). cbn in Hj. lia.
  Qed.
End Strided.

Lemma map_res_pure {X Y} (f : X -> res Y) (g : X -> Y) l : (forall x, In x l -> f x = Ok (g x)) -> map_res f l = Ok (map g l).
Proof.
  induction l as [|x l IH]; intros H; cbn [map_res map]; [reflexivity|].
  rewrite (H x) by (left; reflexivity). cbn [bind]. rewrite IH by (intros y Hy; apply H; right; exact Hy). reflexivity.
Qed.
Lemma list_nth_eq {X} (l : list X) (f : nat -> X) n : length l = n -> (forall i, i < n -> nth_error l i = Some (f i)) ->
  l = map f (seq 0 n).
Proof.
  intros L H. apply nth_error_ext. intros i. destruct (lt_dec i n) as [Hi|Hi].
  - rewrite H by exact Hi. rewrite (map_nth_error f i (seq 0 n) (d := i)); [reflexivity|].
    rewrite (nth_error_nth' _ 0) by (rewrite seq_length; exact Hi). rewrite seq_nth by exact Hi. reflexivity.
  - rewrite (proj2 (nth_error_None l i)) by lia. symmetry. apply nth_error_None. rewrite map_length, seq_length. lia.
Qed.
Lemma index_unique m a b c d : b < m -> d < m -> a * m + b = c * m + d -> a = c /\ b = d.
Proof. intros Hb Hd H. destruct (Nat.div_mod_unique m a c b d Hb Hd); [nia|]. split; assumption. Qed.
Lemma index_bound m n t r : t < n -> r < m -> t * m + r < m * n.
Proof. intros. nia. Qed.

Section Mex.
  Context {A E F : Type} (to_internal : E -> A) (to_host : A -> E) (zero : E).
  Variables (exec : F -> list (list A) -> option (F * list (list A))) (ins outs period : nat).
  Hypothesis Hp : 0 < period.
  Hypothesis Hf : flow_ok exec ins outs period.

  Lemma transfer_in_ok m b : mx_ok m -> mx_m m = ins -> (S b) * period <= mx_n m ->
    transfer_in to_internal ins period m b = Ok (mx_block ins period to_internal zero m b).
  Proof.
    intros Hm Hi Hb. unfold transfer_in, mx_block. apply map_res_pure. intros ch Hc. apply in_seq in Hc.
    destruct (read_strided_ok (mx_data m) ins period (b * period * ins + ch)) as (xs & -> & L & N).
    { intros i Hi'. rewrite Hm, Hi. replace (b * period * ins + ch + i * ins) with ((b * period + i) * ins + ch) by ring.
      apply index_bound; [nia|lia]. }
    cbn [bind]. f_equal. apply list_nth_eq; [rewrite map_length; exact L|]. intros i Hi'.
    unfold element. rewrite Hi. replace ((b * period + i) * ins + ch) with (b * period * ins + ch + i * ins) by ring.
    rewrite <- N by exact Hi'. destruct (nth_error_lt xs i ltac:(lia)) as (x & Ex). rewrite Ex.
    apply map_nth_error. exact Ex.
  Qed.
  Lemma mx_block_ok m b : is_block period ins (mx_block ins period to_internal zero m b).
  Proof.
    unfold mx_block. split; [rewrite map_length, seq_length; reflexivity|]. apply Forall_forall. intros c Hc.
    apply in_map_iff in Hc as (ch & <- & _). rewrite map_length, seq_length. reflexivity.
  Qed.

  Lemma transfer_out_ok len b : (S b) * period <= len -> forall y ch data, length data = outs * len ->
    ch + length y = outs -> Forall (fun c => length c = period) y ->
    exists data', transfer_out to_host outs period data b ch y = Ok data' /\ length data' = outs * len
      /\ forall r t, r < outs -> t < len -> nth_error data' (t * outs + r)
           = if (ch <=? r) && (b * period <=? t) && (t <? S b * period)
             then option_map to_host (nth_error (nth (r - ch) y []) (t - b * period))
             else nth_error data (t * outs + r).
  Proof.
    intros Hb. induction y as [|y0 y IH]; intros ch data Hl Hc Hy; cbn [transfer_out].
    - exists data. split; [reflexivity|]. split; [exact Hl|]. intros r t Hr Ht. cbn in Hc.
      destruct (Nat.leb_spec ch r); [lia|]. reflexivity.
    - apply Forall_cons_iff in Hy as [Hy0 Hy]. cbn [length] in Hc.
      destruct (write_strided_ok outs (map to_host y0) ltac:(lia) data (b * period * outs + ch)) as (d1 & -> & L1 & N1 & O1).
      { intros i Hi. rewrite map_length, Hy0 in Hi. rewrite Hl.
        replace (b * period * outs + ch + i * outs) with ((b * period + i) * outs + ch) by ring. apply index_bound; [nia|lia]. }
      cbn [bind]. destruct (IH (S ch) d1) as (d2 & -> & L2 & N2); [congruence|lia|exact Hy|].
      exists d2. split; [reflexivity|]. split; [exact L2|]. intros r t Hr Ht. rewrite N2 by assumption.
      destruct (Nat.leb_spec (b * period) t) as [T1|T1]; [destruct (Nat.ltb_spec t (S b * period)) as [T2|T2]|];
        rewrite ?andb_true_r, ?andb_false_r; cbn [andb].
      + destruct (Nat.leb_spec (S ch) r) as [R|R].
        * rewrite (proj2 (Nat.leb_le ch r)) by lia. replace (r - ch) with (S (r - S ch)) by lia. reflexivity.
        * destruct (Nat.leb_spec ch r) as [R'|R'].
          -- assert (r = ch) by lia. subst r. rewrite Nat.sub_diag. cbn [nth].
             replace (t * outs + ch) with (b * period * outs + ch + (t - b * period) * outs).
             ++ rewrite N1 by (rewrite map_length, Hy0; nia). apply nth_error_map.
             ++ rewrite Nat.mul_sub_distr_r. assert (b * period * outs <= t * outs) by (apply Nat.mul_le_mono_r; exact T1). lia.
          -- apply O1. intros i Hi Q. rewrite map_length, Hy0 in Hi.
             replace (b * period * outs + ch + i * outs) with ((b * period + i) * outs + ch) in Q by ring.
             apply index_unique in Q; lia.
      + apply O1. intros i Hi Q. rewrite map_length, Hy0 in Hi.
        replace (b * period * outs + ch + i * outs) with ((b * period + i) * outs + ch) in Q by ring.
        apply index_unique in Q; lia.
      + apply O1. intros i Hi Q. rewrite map_length, Hy0 in Hi.
        replace (b * period * outs + ch + i * outs) with ((b * period + i) * outs + ch) in Q by ring.
        apply index_unique in Q; lia.
  Qed.

  (** a status of 0 for success *)
  Definition run_zero (f : F) (x : list (list A)) : res (F * list (list A) * bool) :=
    match exec f x with
    | Some (f', y) => Ok (f', y, false)
    | None => Throw InvalidArgument
    end.

  Lemma mex_blocks_ok m : mx_ok m -> mx_m m = ins -> 0 < ins -> 0 < outs -> forall n b f f' ys data,
    (b + n) * period <= mx_n m -> length data = outs * mx_n m ->
    run_flow exec f (map (mx_block ins period to_internal zero m) (seq b n)) = Some (f', ys) ->
    exists data', mex_blocks to_internal to_host ins outs period run_zero m n b f data = (f', data', Ok tt)
      /\ length data' = outs * mx_n m /\ length ys = n
      /\ forall r t, r < outs -> t < mx_n m -> nth_error data' (t * outs + r)
           = if (b * period <=? t) && (t <? (b + n) * period)
             then option_map to_host (nth_error (nth r (nth (t / period - b) ys []) []) (t mod period))
             else nth_error data (t * outs + r).
  Proof.
    intros Hm Hi Hi0 Ho0. induction n as [|n IH]; intros b f f' ys data Hn Hl Hr.
    - injection Hr as <- <-. exists data. split; [reflexivity|]. split; [exact Hl|]. split; [reflexivity|]. intros r t _ _.
      destruct (Nat.leb_spec (b * period) t); [|reflexivity]. destruct (Nat.ltb_spec t ((b + 0) * period)); [nia|reflexivity].
    - cbn [seq map run_flow] in Hr. destruct (exec f _) as [[f1 y]|] eqn:Ex; [|discriminate Hr].
      destruct (run_flow exec f1 _) as [[f2 ys']|] eqn:Er; [|discriminate Hr]. injection Hr as <- <-.
      cbn [mex_blocks]. rewrite transfer_in_ok by (assumption || nia).
      destruct (Nat.eqb_spec ins 0); [lia|]. destruct (Nat.eqb_spec outs 0); [lia|]. cbn [orb].
      unfold run_zero at 1. rewrite Ex.
      destruct (Hf _ _ _ _ (mx_block_ok m b) Ex) as [Y1 Y2].
      destruct (transfer_out_ok (mx_n m) b ltac:(nia) y 0 data Hl Y1 Y2) as (d1 & -> & L1 & N1).
      destruct (IH (S b) f1 f2 ys' d1) as (d2 & E2 & L2 & L3 & N2); [nia|exact L1|exact Er|].
      exists d2. split; [exact E2|]. split; [exact L2|]. split; [cbn; lia|]. intros r t Hr Ht. rewrite N2 by assumption.
      destruct (Nat.leb_spec (S b * period) t) as [T1|T1].
      + cbn [andb]. replace (S b + n) with (b + S n) by lia.
        rewrite (proj2 (Nat.leb_le (b * period) t)) by nia. cbn [andb].
        destruct (Nat.ltb_spec t ((b + S n) * period)) as [T2|T2].
        * assert (Q : S b <= t / period) by (apply Nat.div_le_lower_bound; nia).
          replace (t / period - b) with (S (t / period - S b)) by lia. reflexivity.
        * rewrite N1 by assumption. rewrite (proj2 (Nat.ltb_ge t (S b * period))) by nia. rewrite !andb_false_r. reflexivity.
      + cbn [andb]. rewrite N1 by assumption. rewrite (proj2 (Nat.ltb_lt t (S b * period))) by nia.
        rewrite (proj2 (Nat.ltb_lt t ((b + S n) * period))) by nia. rewrite !andb_true_r. cbn [Nat.leb andb].
        destruct (Nat.leb_spec (b * period) t) as [T2|T2]; [|reflexivity].
        assert (Q : t / period = b /\ t mod period = t - b * period).
        { destruct (Nat.div_mod_unique period (t / period) b (t mod period) (t - b * period)) as [Q1 Q2].
          - apply Nat.mod_upper_bound. lia.
          - nia.
          - rewrite <- Nat.div_mod by lia. nia.
          - split; assumption. }
        destruct Q as [-> ->]. rewrite Nat.sub_diag, Nat.sub_0_r. reflexivity.
  Qed.
End Mex.

(** *** Max *)
Section Max.
  Context {A E F : Type} (to_internal : E -> A) (to_host : A -> E).
  Variables (ins outs period : nat).
  Lemma max_in_ok (bufs : list (list E)) : ins <= length bufs -> Forall (fun b => period <= length b) bufs ->
    max_in to_internal ins period bufs = Ok (map (fun b => map to_internal (firstn period b)) (firstn ins bufs)).
  Proof.
    intros Hn Hb. unfold max_in.
    assert (G : forall ch, ch < ins -> exists b, nth_error bufs ch = Some b /\ period <= length b).
    { intros ch Hc. destruct (nth_error_lt bufs ch ltac:(lia)) as (b & Eb). exists b. split; [exact Eb|].
      rewrite Forall_forall in Hb. apply Hb. eapply nth_error_In. exact Eb. }
    rewrite (map_res_pure _ (fun ch => map to_internal (firstn period (nth ch bufs [])))).
    - f_equal. symmetry. apply list_nth_eq; [rewrite map_length, firstn_length; lia|]. intros i Hi.
      destruct (G i Hi) as (b & Eb & _). rewrite (nth_error_nth bufs i [] Eb).
      apply (map_nth_error (fun b => map to_internal (firstn period b))). rewrite nth_error_firstn, (proj2 (Nat.ltb_lt _ _) Hi). exact Eb.
    - intros ch Hc. apply in_seq in Hc. destruct (G ch ltac:(lia)) as (b & Eb & Lb). rewrite Eb, (nth_error_nth bufs ch [] Eb).
      destruct (read_strided_ok b 1 period 0) as (xs & -> & L & N). { intros. lia. } cbn [bind]. f_equal. f_equal.
      apply nth_error_ext. intros i. rewrite nth_error_firstn. destruct (Nat.ltb_spec i period) as [Hi|Hi].
      + rewrite N by exact Hi. f_equal. lia.
      + apply nth_error_None. lia.
  Qed.
  Lemma max_out_ok (y : list (list A)) : Forall (fun c => length c = period) y -> forall bufs : list (list E), length y <= length bufs ->
    Forall (fun b => period <= length b) bufs ->
    max_out to_host bufs y = Ok (map (fun p => map to_host (fst p) ++ skipn period (snd p)) (combine y bufs) ++ skipn (length y) bufs).
  Proof.
    induction 1 as [|y0 y H0 Hy IH]; intros bufs L Hb; [destruct bufs; reflexivity|].
    destruct bufs as [|b bufs]; cbn [length] in L; [lia|]. apply Forall_cons_iff in Hb as [Hb0 Hb]. cbn [max_out].
    destruct (write_strided_ok 1 (map to_host y0) ltac:(lia) b 0) as (b' & -> & L' & N & O).
    { intros i Hi. rewrite map_length in Hi. lia. }
    cbn [bind]. rewrite IH by (lia || assumption). cbn [bind combine map app skipn fst snd length]. f_equal. f_equal.
    apply nth_error_ext. intros i. destruct (lt_dec i period) as [Hi|Hi].
    - rewrite nth_error_app1 by (rewrite map_length; lia). specialize (N i). rewrite map_length, Nat.add_0_l, Nat.mul_1_r in N.
      apply N. lia.
    - rewrite nth_error_app2 by (rewrite map_length; lia). rewrite map_length, H0, nth_error_skipn.
      replace (period + (i - period)) with i by lia. apply O. intros j Hj. rewrite map_length in Hj. lia.
  Qed.
End Max.

(** *** Python *)
Section Python.
  Local Open Scope Z_scope.
  Lemma stride_exact s : (sample_size | s) -> (stride_elements s * sample_size) mod word = s mod word.
  Proof.
    intros [k ->]. unfold stride_elements. assert (W : word = 2 ^ 62 * sample_size) by reflexivity. rewrite W.
    assert (P : 2 ^ 62 <> 0) by (apply Z.pow_nonzero; lia). assert (Q : sample_size <> 0) by (unfold sample_size; lia).
    rewrite (Z.mul_mod_distr_r k (2 ^ 62) sample_size) by assumption.
    rewrite Z.div_mul by assumption. rewrite !Z.mul_mod_distr_r by assumption. rewrite Z.mod_mod by assumption. reflexivity.
  Qed.
  Lemma advance_scaled p ch s : (sample_size | s) ->
    advance p ((ch * stride_elements s) mod word) = (p + ch * s) mod word.
  Proof.
    intros H. unfold advance. assert (W : word <> 0) by (unfold word; lia).
    rewrite Z.add_mod by exact W. rewrite (Z.mul_mod (_ mod word)) by exact W. rewrite Z.mod_mod by exact W.
    rewrite <- Z.mul_mod by exact W. rewrite <- Z.mul_assoc. rewrite (Z.mul_mod ch) by exact W.
    rewrite stride_exact by exact H. rewrite <- Z.mul_mod by exact W. rewrite <- Z.add_mod by exact W. reflexivity.
  Qed.
  Lemma advance_once p s : (sample_size | s) -> advance p (stride_elements s) = (p + s) mod word.
  Proof.
    intros H. unfold advance. assert (W : word <> 0) by (unfold word; lia).
    rewrite Z.add_mod by exact W. rewrite stride_exact by exact H. rewrite <- Z.add_mod by exact W. reflexivity.
  Qed.
  Context {A : Type} (load : Z -> A).
  Lemma copy_strided_ok s n : (sample_size | s) -> forall p,
    copy_strided load (p mod word) (stride_elements s) n = map (fun i => load ((p + Z.of_nat i * s) mod word)) (seq 0 n).
  Proof.
    intros H. induction n as [|n IH]; intros p; cbn [copy_strided seq map]; [reflexivity|].
    f_equal; [f_equal; f_equal; lia|]. rewrite advance_once by exact H.
    assert (W : word <> 0) by (unfold word; lia). rewrite Z.add_mod_idemp_l by exact W. rewrite IH.
    rewrite <- seq_shift, map_map. apply map_ext. intros i. f_equal. f_equal. lia.
  Qed.
End Python.

Lemma copy_out_ok {A} period : forall (y : list (list A)) ch out, Forall (fun c => length c = period) y ->
  length out = (ch + length y) * period ->
  exists out', copy_out ch y out period 1 = Ok out' /\ out' = firstn (ch * period) out ++ map Some (concat y).
Proof.
  induction y as [|y0 y IH]; intros ch out Hy Hl; cbn [copy_out].
  - exists out. split; [reflexivity|]. cbn [concat map]. rewrite app_nil_r. symmetry. apply firstn_all2. cbn in Hl. nia.
  - apply Forall_cons_iff in Hy as [H0 Hy]. cbn [length] in Hl.
    destruct (write_strided_ok 1 (map Some y0) ltac:(lia) out (ch * period)) as (o1 & -> & L1 & N1 & O1).
    { intros i Hi. rewrite map_length in Hi. nia. }
    cbn [bind]. destruct (IH (S ch) o1 Hy ltac:(rewrite L1; lia)) as (o2 & E2 & ->). exists (firstn (S ch * period) o1 ++ map Some (concat y)).
    split; [exact E2|]. cbn [concat]. rewrite map_app, app_assoc. f_equal.
    apply nth_error_ext. intros i. rewrite nth_error_firstn. destruct (Nat.ltb_spec i (S ch * period)) as [Hi|Hi].
    + destruct (lt_dec i (ch * period)) as [Hi'|Hi'].
      * rewrite nth_error_app1 by (rewrite firstn_length; nia). rewrite nth_error_firstn, (proj2 (Nat.ltb_lt _ _) Hi').
        apply O1. intros j _. lia.
      * rewrite nth_error_app2 by (rewrite firstn_length; lia).
        assert (Lf : length (firstn (ch * period) out) = ch * period) by (rewrite firstn_length; nia). rewrite Lf.
        specialize (N1 (i - ch * period)). rewrite map_length in N1. rewrite <- N1 by nia. f_equal. lia.
    + symmetry. apply nth_error_None. rewrite app_length, map_length, firstn_length. nia.
Qed.
