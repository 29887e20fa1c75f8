(** Proofs about OscModel. *)
From Coq Require Import Ascii NArith Lia.
From Verif Require Import Base OscModel OscSpec.
Local Open Scope res_scope.

(** *** Reading bytes *)
Lemma ceil4_le n : n <= ceil4 n.
Proof. unfold ceil4. pose proof (Nat.div_mod (n + 3) 4 ltac:(lia)). pose proof (Nat.mod_upper_bound (n + 3) 4 ltac:(lia)). lia. Qed.
Lemma ceil4_mod n : ceil4 n mod 4 = 0.
Proof. unfold ceil4. now rewrite Nat.mod_mul. Qed.
Lemma ceil4_least n k : k mod 4 = 0 -> n <= k -> ceil4 n <= k.
Proof.
  intros H L. unfold ceil4. apply Nat.mod_divides in H as [c ->]; [|lia].
  assert ((n + 3) / 4 <= c); [|lia]. apply Nat.lt_succ_r, Nat.div_lt_upper_bound; lia.
Qed.
Lemma ceil4_id k : k mod 4 = 0 -> ceil4 k = k.
Proof. intros H. pose proof (ceil4_le k). pose proof (ceil4_least k k H ltac:(lia)). lia. Qed.
Lemma ceil4_add p n : p mod 4 = 0 -> ceil4 (p + n) = p + ceil4 n.
Proof. intros H. unfold ceil4. apply Nat.mod_divides in H as [c ->]; [|lia]. replace (4 * c + n + 3) with (n + 3 + c * 4) by lia. rewrite Nat.div_add by lia. lia. Qed.
Lemma mod4_add p n : p mod 4 = 0 -> (p + n) mod 4 = n mod 4.
Proof. intros H. rewrite Nat.add_mod, H by lia. cbn [Nat.add]. now rewrite Nat.mod_mod. Qed.

Lemma padded_eq s : padded s = s ++ repeat zero (ceil4 (length s) - length s).
Proof.
  unfold padded. do 2 f_equal. unfold ceil4. set (n := length s).
  pose proof (Nat.div_mod n 4 ltac:(lia)) as E. pose proof (Nat.mod_upper_bound n 4 ltac:(lia)) as B.
  set (q := n / 4) in *. set (r := n mod 4) in *.
  assert (C : r = 0 \/ r = 1 \/ r = 2 \/ r = 3) by lia. destruct C as [C|[C|[C|C]]]; rewrite C in *.
  - replace (n + 3) with (3 + q * 4) by lia. rewrite Nat.div_add by lia. change (3 / 4) with 0. change ((4 - 0) mod 4) with 0. lia.
  - replace (n + 3) with (4 + q * 4) by lia. rewrite Nat.div_add by lia. change (4 / 4) with 1. change ((4 - 1) mod 4) with 3. lia.
  - replace (n + 3) with (5 + q * 4) by lia. rewrite Nat.div_add by lia. change (5 / 4) with 1. change ((4 - 2) mod 4) with 2. lia.
  - replace (n + 3) with (6 + q * 4) by lia. rewrite Nat.div_add by lia. change (6 / 4) with 1. change ((4 - 3) mod 4) with 1. lia.
Qed.
Lemma padded_length s : length (padded s) = ceil4 (length s).
Proof. rewrite padded_eq, app_length, repeat_length. pose proof (ceil4_le (length s)). lia. Qed.

Lemma nth_skipn {A} p : forall (d : list A), nth_error d p = nth_error (skipn p d) 0.
Proof. induction p as [|p IH]; intros d; [reflexivity|]. destruct d; [reflexivity|]. cbn [nth_error skipn]. apply IH. Qed.
Lemma skipn_S {A} p : forall (d : list A) c l, skipn p d = c :: l -> skipn (S p) d = l.
Proof. induction p as [|p IH]; intros d c l H; destruct d; cbn [skipn] in *; try discriminate; [now injection H|]. exact (IH _ _ _ H). Qed.
Lemma skipn_add {A} p : forall q (d : list A), skipn (p + q) d = skipn q (skipn p d).
Proof. induction p as [|p IH]; intros q d; [reflexivity|]. destruct d; [now rewrite !skipn_nil|]. cbn [Nat.add skipn]. apply IH. Qed.
Lemma skipn_cons_lt {A} p : forall (d : list A), p < length d -> exists c l, skipn p d = c :: l.
Proof.
  intros d H. destruct (skipn p d) as [|c l] eqn:E; [|now exists c, l].
  apply (f_equal (@length A)) in E. rewrite skipn_length in E. cbn in E. lia.
Qed.
Lemma get_skipn d p c l : skipn p d = c :: l -> get d p = Ok c.
Proof. intros H. unfold get. now rewrite nth_skipn, H. Qed.

Definition num (l : bytes) (acc : N) : N := fold_left (fun a c => (a * 256 + N_of_ascii c)%N) l acc.
Lemma bytes2pod_num n : forall d p acc, p + n <= length d -> bytes2pod d p n acc = Ok (num (firstn n (skipn p d)) acc).
Proof.
  induction n as [|n IH]; intros d p acc H; [reflexivity|].
  destruct (skipn_cons_lt p d ltac:(lia)) as (c & l & E). cbn [bytes2pod]. rewrite (get_skipn _ _ _ _ E), E. cbn [bind firstn num fold_left].
  rewrite IH by lia. now rewrite (skipn_S _ _ _ _ E).
Qed.
Lemma num_snoc l c acc : num (l ++ [c]) acc = (num l acc * 256 + N_of_ascii c)%N.
Proof. unfold num. now rewrite fold_left_app. Qed.
Lemma byte_lt c : (N_of_ascii c < 256)%N.
Proof. apply N_ascii_bounded. Qed.
Lemma num_lt l : (num l 0 < 256 ^ N.of_nat (length l))%N.
Proof.
  induction l as [|c l IH] using rev_ind; [reflexivity|]. rewrite num_snoc, app_length. cbn [length].
  rewrite Nat.add_1_r, Nat2N.inj_succ, N.pow_succ_r'. pose proof (byte_lt c). nia.
Qed.
Lemma big_endian_length k : forall v, length (big_endian k v) = k.
Proof. induction k as [|k IH]; intros v; [reflexivity|]. cbn [big_endian]. rewrite app_length, IH. cbn. lia. Qed.
Lemma num_big_endian k : forall v, (v < 256 ^ N.of_nat k)%N -> num (big_endian k v) 0 = v.
Proof.
  induction k as [|k IH]; intros v H; [cbn in *; lia|]. cbn [big_endian]. rewrite num_snoc.
  rewrite Nat2N.inj_succ, N.pow_succ_r' in H. rewrite IH by (apply N.div_lt_upper_bound; lia).
  rewrite N_ascii_embedding by (apply N.mod_lt; lia). pose proof (N.div_mod v 256). lia.
Qed.
Lemma big_endian_num l : big_endian (length l) (num l 0) = l.
Proof.
  induction l as [|c l IH] using rev_ind; [reflexivity|]. rewrite app_length, num_snoc, Nat.add_1_r. cbn [big_endian].
  rewrite N.div_add_l, N.div_small, N.add_0_r, IH by (try apply byte_lt; lia).
  rewrite N.add_comm, N.mod_add, N.mod_small by (try apply byte_lt; lia). now rewrite ascii_N_embedding.
Qed.

Lemma index0_none l : index0 l = None -> ~ In zero l.
Proof.
  induction l as [|c l IH]; cbn; [intros _ []|]. destruct (Ascii.eqb_spec c nul) as [->|N]; [discriminate|].
  destruct (index0 l); [discriminate|]. intros _ [E|H]; [now apply N|now apply IH].
Qed.
Lemma index0_some l n : index0 l = Some n <-> exists s r, l = s ++ zero :: r /\ ~ In zero s /\ length s = n.
Proof.
  split.
  - revert n. induction l as [|c l IH]; intros n; cbn; [discriminate|]. destruct (Ascii.eqb_spec c nul) as [->|N].
    + intros [= <-]. now exists [], l.
    + destruct (index0 l) as [k|]; [|discriminate]. intros [= <-]. destruct (IH k eq_refl) as (s & r & -> & Hs & <-).
      exists (c :: s), r. split; [reflexivity|]. split; [intros [E|H]; [now apply N|now apply Hs]|reflexivity].
  - intros (s & r & -> & Hs & <-). induction s as [|c s IH]; [reflexivity|]. cbn.
    destruct (Ascii.eqb_spec c nul) as [->|N]; [destruct Hs; now left|]. rewrite IH; [reflexivity|]. intros H. apply Hs. now right.
Qed.

Lemma zeros_spec n : forall d p, p + n <= length d -> exists b, zeros d p n = Ok b /\ (b = true <-> firstn n (skipn p d) = repeat zero n).
Proof.
  induction n as [|n IH]; intros d p H; [exists true; split; [reflexivity|easy]|].
  destruct (skipn_cons_lt p d ltac:(lia)) as (c & l & E). cbn [zeros]. rewrite (get_skipn _ _ _ _ E), E. cbn [bind firstn repeat].
  destruct (Ascii.eqb_spec c nul) as [->|N].
  - destruct (IH d (S p) ltac:(lia)) as (b & B1 & B2). exists b. split; [exact B1|]. rewrite (skipn_S _ _ _ _ E) in B2. rewrite B2.
    unfold nul. split; [congruence|]. intros X. now injection X.
  - exists false. split; [reflexivity|]. split; [discriminate|]. intros X. injection X as X _. now destruct N.
Qed.

(** aligned positions in an area *)
Definition aligned (d : bytes) (p : nat) : Prop := length d mod 4 = 0 /\ p mod 4 = 0 /\ p <= length d.
(** a body of [n] bytes at [p] and its padding *)
Lemma padding_spec d p n : aligned d p -> p + n <= length d ->
  exists b, isZeroPaddingCorrect d (p + n) = Ok b
    /\ (b = true <-> firstn (ceil4 n) (skipn p d) = padded (firstn n (skipn p d))) /\ p + ceil4 n <= length d.
Proof.
  intros (A1 & A2 & A3) H.
  assert (L : p + ceil4 n <= length d) by (rewrite <- ceil4_add by exact A2; now apply ceil4_least).
  unfold isZeroPaddingCorrect. rewrite ceil4_add by exact A2. pose proof (ceil4_le n) as Q.
  replace (p + ceil4 n - (p + n)) with (ceil4 n - n) by lia.
  destruct (zeros_spec (ceil4 n - n) d (p + n) ltac:(lia)) as (b & B1 & B2). exists b. split; [exact B1|]. split; [|exact L].
  rewrite B2, skipn_add, padded_eq.
  assert (X : length (firstn n (skipn p d)) = n) by (rewrite firstn_length, skipn_length; lia). rewrite X.
  assert (Y : firstn (ceil4 n) (skipn p d) = firstn n (skipn p d) ++ firstn (ceil4 n - n) (skipn n (skipn p d))).
  { rewrite <- (firstn_skipn n (skipn p d)) at 1. rewrite firstn_app, X. f_equal. apply firstn_all2. lia. }
  rewrite Y. split; [intros ->; reflexivity|]. intros Z. now apply app_inv_head in Z.
Qed.

(** *** Arguments *)
Lemma check_size_sound d p sz : aligned d p ->
  match check_size d p sz with
  | Ok (inl n) => sz = N.of_nat n /\ p + n <= length d /\ p + ceil4 n <= length d
                  /\ firstn (ceil4 n) (skipn p d) = padded (firstn n (skipn p d))
  | Ok (inr e) => e = MALFORMED_ARGUMENTS
  | _ => False
  end.
Proof.
  intros A. unfold check_size. destruct (N.ltb_spec (N.of_nat (length d)) (N.of_nat p + sz)); [exact eq_refl|].
  destruct (padding_spec d p (N.to_nat sz) A ltac:(lia)) as (b & -> & B2 & B3). cbn [bind]. destruct b; [|reflexivity].
  split; [lia|]. split; [lia|]. split; [exact B3|now apply B2].
Qed.
Lemma check_size_complete d p n : aligned d p -> p + n <= length d ->
  firstn (ceil4 n) (skipn p d) = padded (firstn n (skipn p d)) -> check_size d p (N.of_nat n) = Ok (inl n).
Proof.
  intros A L P. unfold check_size. destruct (N.ltb_spec (N.of_nat (length d)) (N.of_nat p + N.of_nat n)); [lia|].
  rewrite Nat2N.id. destruct (padding_spec d p n A L) as (b & -> & B2 & B3). cbn [bind]. now rewrite (proj2 B2 P).
Qed.

Definition known_tag (t : ascii) : Prop := In t ["T"; "F"; "i"; "f"; "h"; "d"; "s"; "b"]%char.
Lemma unknown_tag d t p : ~ known_tag t -> getArgSize d t p = Ok (inr UNHANDLED_TYPE_TAGS).
Proof.
  intros N. unfold known_tag in N. destruct t as [[] [] [] [] [] [] [] []]; try reflexivity; exfalso; apply N; cbn; tauto.
Qed.
Lemma aligned_four d p : aligned d p -> p <> length d -> p + 4 <= length d.
Proof.
  intros (A1 & A2 & A3) N. apply Nat.mod_divides in A1 as [x A1]; [|lia]. apply Nat.mod_divides in A2 as [y A2]; [|lia]. lia.
Qed.
Lemma firstn_first {A} a b (l : list A) : a <= b -> firstn a (firstn b l) = firstn a l.
Proof. intros H. rewrite firstn_firstn. f_equal. lia. Qed.
Lemma four_words n : n mod 4 = 0 -> n <= 4 -> n = 0 \/ n = 4.
Proof. intros H L. destruct n as [|[|[|[|[|n]]]]]; cbn in *; lia. Qed.
Lemma blob_wrap l v n : length l = 4 -> v = num l 0 -> N.of_nat n = ((4 + v) mod 4294967296)%N -> n < 4 ->
  l = padded (firstn n l) -> n = 0.
Proof.
  intros L V E H P. destruct n as [|n]; [reflexivity|]. exfalso.
  assert (B : (v < 4294967296)%N) by (subst v; pose proof (num_lt l) as X; rewrite L in X; exact X).
  assert (Z : exists l', l = l' ++ [zero]).
  { rewrite P. rewrite padded_eq. rewrite firstn_length, L. replace (Nat.min (S n) 4) with (S n) by lia.
    exists (firstn (S n) l ++ repeat zero (3 - S n)). rewrite <- app_assoc. f_equal.
    destruct n as [|[|[|n]]]; [reflexivity|reflexivity|reflexivity|lia]. }
  destruct Z as [l' ->]. rewrite num_snoc in V. change (N_of_ascii zero) with 0%N in V. rewrite N.add_0_r in V.
  set (x := num l' 0) in *.
  destruct (N.lt_ge_cases (4 + v) 4294967296) as [C|C]; [rewrite N.mod_small in E by exact C; lia|].
  assert (X : ((4 + v) mod 4294967296 = 4 + v - 4294967296)%N).
  { symmetry. apply N.mod_unique with 1%N; lia. }
  rewrite X in E. lia.
Qed.

Lemma getArgSize_sound d t p : aligned d p ->
  match getArgSize d t p with
  | Ok (inl n) => p + n <= length d /\ p + ceil4 n <= length d
      /\ ((exists a, valid_arg a /\ t = arg_tag a /\ firstn n (skipn p d) = arg_body a /\ firstn (ceil4 n) (skipn p d) = padded (arg_body a))
          \/ (t = "b"%char /\ n = 0))
  | Ok (inr _) => True
  | _ => False
  end.
Proof.
  intros A. destruct (in_dec ascii_dec t ["T"; "F"; "i"; "f"; "h"; "d"; "s"; "b"]%char) as [K|K]; [|now rewrite unknown_tag].
  assert (BE : forall k, p + k <= length d -> firstn k (skipn p d) = big_endian k (num (firstn k (skipn p d)) 0)
                /\ (num (firstn k (skipn p d)) 0 < 256 ^ N.of_nat k)%N).
  { intros k H. assert (X : length (firstn k (skipn p d)) = k) by (rewrite firstn_length, skipn_length; lia).
    split; [rewrite <- X at 2; now rewrite big_endian_num|]. pose proof (num_lt (firstn k (skipn p d))) as Y. now rewrite X in Y. }
  destruct K as [<-|[<-|[<-|[<-|[<-|[<-|[<-|[<-|[]]]]]]]]]; cbn [getArgSize].
  - pose proof (check_size_sound d p 0 A) as C. destruct (check_size d p 0) as [[n|e]|e|]; try easy.
    destruct C as (C1 & C2 & C3 & C4). assert (n = 0) as -> by lia. split; [lia|]. split; [lia|]. left. exists (ABool true). repeat split.
  - pose proof (check_size_sound d p 0 A) as C. destruct (check_size d p 0) as [[n|e]|e|]; try easy.
    destruct C as (C1 & C2 & C3 & C4). assert (n = 0) as -> by lia. split; [lia|]. split; [lia|]. left. exists (ABool false). repeat split.
  - pose proof (check_size_sound d p 4 A) as C. destruct (check_size d p 4) as [[n|e]|e|]; try easy.
    destruct C as (C1 & C2 & C3 & C4). assert (n = 4) as -> by lia. destruct (BE 4 C2) as (B1 & B2). split; [lia|]. split; [lia|]. left.
    exists (AInt32 (num (firstn 4 (skipn p d)) 0)). split; [exact B2|]. split; [reflexivity|]. cbn [arg_body]. rewrite <- B1. split; [reflexivity|exact C4].
  - pose proof (check_size_sound d p 4 A) as C. destruct (check_size d p 4) as [[n|e]|e|]; try easy.
    destruct C as (C1 & C2 & C3 & C4). assert (n = 4) as -> by lia. destruct (BE 4 C2) as (B1 & B2). split; [lia|]. split; [lia|]. left.
    exists (AFloat (num (firstn 4 (skipn p d)) 0)). split; [exact B2|]. split; [reflexivity|]. cbn [arg_body]. rewrite <- B1. split; [reflexivity|exact C4].
  - pose proof (check_size_sound d p 8 A) as C. destruct (check_size d p 8) as [[n|e]|e|]; try easy.
    destruct C as (C1 & C2 & C3 & C4). assert (n = 8) as -> by lia. destruct (BE 8 C2) as (B1 & B2). split; [lia|]. split; [lia|]. left.
    exists (AInt64 (num (firstn 8 (skipn p d)) 0)). split; [exact B2|]. split; [reflexivity|]. cbn [arg_body]. rewrite <- B1. split; [reflexivity|exact C4].
  - pose proof (check_size_sound d p 8 A) as C. destruct (check_size d p 8) as [[n|e]|e|]; try easy.
    destruct C as (C1 & C2 & C3 & C4). assert (n = 8) as -> by lia. destruct (BE 8 C2) as (B1 & B2). split; [lia|]. split; [lia|]. left.
    exists (ADouble (num (firstn 8 (skipn p d)) 0)). split; [exact B2|]. split; [reflexivity|]. cbn [arg_body]. rewrite <- B1. split; [reflexivity|exact C4].
  - unfold memchr. destruct (Nat.ltb_spec (length d) p) as [L|L]; [destruct A; lia|]. cbn [bind].
    destruct (index0 (skipn p d)) as [q|] eqn:I; [|exact Logic.I]. cbn [option_map].
    replace (N.of_nat (p + q - p) + 1)%N with (N.of_nat (q + 1)) by lia.
    pose proof (check_size_sound d p (N.of_nat (q + 1)) A) as C. destruct (check_size d p (N.of_nat (q + 1))) as [[n|e]|e|]; try easy.
    destruct C as (C1 & C2 & C3 & C4). assert (n = q + 1) as -> by lia. split; [exact C2|]. split; [exact C3|]. left.
    apply index0_some in I as (s & r & Es & Hs & <-). exists (AString s). split; [exact Hs|]. split; [reflexivity|]. cbn [arg_body].
    assert (F : firstn (length s + 1) (skipn p d) = s ++ [zero]).
    { rewrite Es, firstn_app_2. reflexivity. }
    split; [exact F|]. now rewrite C4, F.
  - destruct (Nat.eqb_spec p (length d)) as [E|E]; [exact I|]. pose proof (aligned_four d p A E) as L.
    rewrite bytes2pod_num by exact L. cbn [bind]. destruct (BE 4 L) as (B1 & B2). set (v := num (firstn 4 (skipn p d)) 0) in *.
    pose proof (check_size_sound d p ((4 + v) mod 4294967296) A) as C.
    destruct (check_size d p ((4 + v) mod 4294967296)) as [[n|e]|e|]; try easy. destruct C as (C1 & C2 & C3 & C4).
    split; [exact C2|]. split; [exact C3|]. change (256 ^ N.of_nat 4)%N with 4294967296%N in B2.
    destruct (N.lt_ge_cases (4 + v) 4294967296) as [W|W].
    + left. rewrite N.mod_small in C1 by exact W. exists (ABlob (firstn (n - 4) (skipn 4 (skipn p d)))).
      assert (LS : length (firstn (n - 4) (skipn 4 (skipn p d))) = n - 4) by (rewrite firstn_length, !skipn_length; lia).
      assert (F : firstn n (skipn p d) = arg_body (ABlob (firstn (n - 4) (skipn 4 (skipn p d))))).
      { cbn [arg_body]. rewrite LS. replace (N.of_nat (n - 4)) with v by lia. rewrite <- B1.
        rewrite <- (firstn_skipn 4 (skipn p d)) at 1. rewrite firstn_app. rewrite firstn_length, skipn_length.
        replace (Nat.min 4 (length d - p)) with 4 by lia. f_equal. apply firstn_all2. rewrite firstn_length. lia. }
      split; [cbn [valid_arg]; rewrite LS; change (2 ^ 32)%N with 4294967296%N; lia|]. split; [reflexivity|]. split; [exact F|]. now rewrite C4, F.
    + right. split; [reflexivity|].
      assert (X : ((4 + v) mod 4294967296 = 4 + v - 4294967296)%N) by (symmetry; apply N.mod_unique with 1%N; lia).
      assert (n < 4) by lia. destruct (Nat.eq_dec n 0) as [Z|Z]; [exact Z|].
      assert (C5 : ceil4 n = 4).
      { destruct n as [|[|[|[|n]]]]; try reflexivity; lia. }
      rewrite C5 in C4. apply (blob_wrap (firstn 4 (skipn p d)) v n); auto.
      * rewrite firstn_length, skipn_length. lia.
      * rewrite firstn_first by lia. exact C4.
Qed.

Lemma firstn_app_exact {A} (a b : list A) : firstn (length a) (a ++ b) = a.
Proof. rewrite <- (Nat.add_0_r (length a)), firstn_app_2. cbn. apply app_nil_r. Qed.
Lemma getArgSize_complete d p a rest : aligned d p -> valid_arg a -> skipn p d = padded (arg_body a) ++ rest ->
  getArgSize d (arg_tag a) p = Ok (inl (length (arg_body a)))
  /\ firstn (length (arg_body a)) (skipn p d) = arg_body a /\ p + ceil4 (length (arg_body a)) <= length d.
Proof.
  intros A Va E.
  assert (L : p + ceil4 (length (arg_body a)) <= length d).
  { apply (f_equal (@length ascii)) in E. rewrite skipn_length, app_length, padded_length in E. destruct A as (_ & _ & A). lia. }
  pose proof (ceil4_le (length (arg_body a))) as Q.
  assert (F : firstn (length (arg_body a)) (skipn p d) = arg_body a).
  { rewrite E, padded_eq, <- app_assoc. apply firstn_app_exact. }
  split; [|split; [exact F|exact L]].
  assert (C : check_size d p (N.of_nat (length (arg_body a))) = Ok (inl (length (arg_body a)))).
  { apply check_size_complete; [exact A|lia|]. rewrite F, E, <- padded_length. apply firstn_app_exact. }
  destruct a as [b|n|n|n|n|s|s]; cbn [arg_tag arg_body valid_arg] in *.
  - destruct b; exact C.
  - rewrite big_endian_length in *. exact C.
  - rewrite big_endian_length in *. exact C.
  - rewrite big_endian_length in *. exact C.
  - rewrite big_endian_length in *. exact C.
  - cbn [getArgSize]. unfold memchr. destruct (Nat.ltb_spec (length d) p) as [L'|_]; [lia|]. cbn [bind].
    rewrite app_length in *. cbn [length] in *.
    assert (I : index0 (skipn p d) = Some (length s)).
    { apply index0_some. exists s, (repeat zero (ceil4 (length (s ++ [zero])) - length (s ++ [zero])) ++ rest).
      split; [|split; [exact Va|reflexivity]]. rewrite E, padded_eq, <- !app_assoc. reflexivity. }
    rewrite I. cbn [option_map]. replace (N.of_nat (p + length s - p) + 1)%N with (N.of_nat (length s + 1)) by lia. exact C.
  - cbn [getArgSize]. rewrite app_length, big_endian_length in *. destruct (Nat.eqb_spec p (length d)) as [P|P]; [lia|].
    rewrite bytes2pod_num by (apply aligned_four; assumption). cbn [bind].
    assert (B : firstn 4 (skipn p d) = big_endian 4 (N.of_nat (length s))).
    { rewrite <- (firstn_first 4 (4 + length s)), F by lia. rewrite <- (big_endian_length 4 (N.of_nat (length s))) at 1. apply firstn_app_exact. }
    rewrite B, num_big_endian by (change (256 ^ N.of_nat 4)%N with (2 ^ 32)%N; lia).
    change (2 ^ 32)%N with 4294967296%N in Va. rewrite N.mod_small by lia. replace (4 + N.of_nat (length s))%N with (N.of_nat (4 + length s)) by lia. exact C.
Qed.

(** argument [a] is found at the recorded position *)
Definition holds (d : bytes) (e : nat * nat) (a : osc_arg) : Prop :=
  fst e + snd e <= length d /\ firstn (snd e) (skipn (fst e) d) = arg_body a.
(** no blob has the size 0, i.e. less than the four bytes of its length field *)
Definition sane (tags : bytes) (l : list (nat * nat)) : Prop := Forall2 (fun t e => t = "b"%char -> snd e <> 0) tags l.

Lemma aligned_step d p n : aligned d p -> p + ceil4 n <= length d -> aligned d (p + ceil4 n).
Proof. intros (A1 & A2 & _) L. split; [exact A1|]. split; [rewrite mod4_add by exact A2; apply ceil4_mod|exact L]. Qed.
Lemma firstn_more {A} a b (l : list A) : firstn (a + b) l = firstn a l ++ firstn b (skipn a l).
Proof.
  revert l. induction a as [|a IH]; intros l; [reflexivity|]. destruct l; [now rewrite skipn_nil, !firstn_nil|]. cbn [Nat.add firstn skipn app]. now rewrite IH.
Qed.

Lemma arguments_sound tags : forall d p, aligned d p ->
  match arguments d tags p with
  | Ok (l, q, e) => aligned d q /\ p <= q /\
      (e = None -> length l = length tags /\
        (sane tags l -> exists args, tags = map arg_tag args /\ (forall a, In a args -> valid_arg a)
           /\ firstn (q - p) (skipn p d) = concat (map (fun a => padded (arg_body a)) args) /\ Forall2 (holds d) l args))
  | _ => False
  end.
Proof.
  induction tags as [|t tags IH]; intros d p A; cbn [arguments].
  - split; [exact A|]. split; [lia|]. intros _. split; [reflexivity|]. intros _. exists []. rewrite Nat.sub_diag. repeat split; [intros a []|constructor].
  - pose proof (getArgSize_sound d t p A) as G. destruct (getArgSize d t p) as [[n|e]|e|]; try easy; cbn [bind].
    destruct G as (G1 & G2 & G3). specialize (IH d (p + ceil4 n) (aligned_step d p n A G2)).
    destruct (arguments d tags (p + ceil4 n)) as [[[l q] e]|e|]; try easy; cbn [bind].
    destruct IH as (I1 & I2 & I3). split; [exact I1|]. split; [lia|]. intros E. destruct (I3 E) as (I4 & I5). split; [cbn; now rewrite I4|].
    intros Sn. inversion Sn as [|? ? ? ? S1 S2]; subst. destruct (I5 S2) as (args & E1 & E2 & E3 & E4).
    destruct G3 as [(a & Ga & Gt & Gf & Gp)|[Gt Gn]]; [|destruct (S1 Gt Gn)].
    exists (a :: args). split; [cbn; congruence|]. split; [intros x [<-|Hx]; auto|]. split.
    + cbn [map concat]. replace (q - p) with (ceil4 n + (q - (p + ceil4 n))) by lia. rewrite firstn_more, Gp. f_equal. now rewrite <- skipn_add.
    + constructor; [split; [exact G1|exact Gf]|exact E4].
Qed.

Lemma arguments_complete args : forall d p rest, aligned d p -> (forall a, In a args -> valid_arg a) ->
  skipn p d = concat (map (fun a => padded (arg_body a)) args) ++ rest ->
  exists l, arguments d (map arg_tag args) p = Ok (l, p + length (concat (map (fun a => padded (arg_body a)) args)), None)
    /\ Forall2 (holds d) l args.
Proof.
  induction args as [|a args IH]; intros d p rest A Va E; cbn [map concat arguments] in *.
  - exists []. split; [cbn; now rewrite Nat.add_0_r|constructor].
  - rewrite <- app_assoc in E.
    destruct (getArgSize_complete d p a _ A (Va a (or_introl eq_refl)) E) as (G & F & L). rewrite G. cbn [bind].
    destruct (IH d (p + ceil4 (length (arg_body a))) rest) as (l & H1 & H2).
    + now apply aligned_step.
    + intros x Hx. apply Va. now right.
    + rewrite skipn_add, E, <- padded_length. rewrite skipn_app, skipn_all, Nat.sub_diag. reflexivity.
    + rewrite H1. cbn [bind]. eexists. split.
      * rewrite app_length, padded_length, Nat.add_assoc. reflexivity.
      * constructor; [|exact H2]. split; [cbn [fst snd]; pose proof (ceil4_le (length (arg_body a))); lia|exact F].
Qed.

(** a string that ends with a zero byte, and its padding *)
Lemma string_sound d p : aligned d p ->
  match memchr d p with
  | Ok None => True
  | Ok (Some q) => p < length d /\ exists b, isZeroPaddingCorrect d (q + 1) = Ok b /\
      (b = true -> exists s, ~ In zero s /\ q = p + length s /\ ceil4 (q + 1) = p + length (padded (s ++ [zero]))
         /\ firstn (length (padded (s ++ [zero]))) (skipn p d) = padded (s ++ [zero]) /\ aligned d (ceil4 (q + 1)))
  | _ => False
  end.
Proof.
  intros A. unfold memchr. destruct (Nat.ltb_spec (length d) p) as [L|L]; [destruct A; lia|].
  destruct (index0 (skipn p d)) as [n|] eqn:I; [|exact Logic.I]. cbn [option_map].
  apply index0_some in I as (s & r & Es & Hs & <-).
  assert (LE := f_equal (@length ascii) Es). rewrite skipn_length, app_length in LE. cbn [length] in LE. split; [lia|].
  destruct (padding_spec d p (length s + 1) A ltac:(lia)) as (b & B1 & B2 & B3). rewrite <- Nat.add_assoc. exists b. split; [exact B1|].
  intros ->. exists s. split; [exact Hs|]. split; [reflexivity|].
  assert (F : firstn (length s + 1) (skipn p d) = s ++ [zero]) by (rewrite Es, firstn_app_2; reflexivity).
  assert (X : length (padded (s ++ [zero])) = ceil4 (length s + 1)) by (rewrite padded_length, app_length; reflexivity).
  assert (Y : ceil4 (p + (length s + 1)) = p + ceil4 (length s + 1)) by (apply ceil4_add; apply A).
  rewrite X, Y. split; [reflexivity|]. split; [|now apply aligned_step]. rewrite (proj1 B2 eq_refl), F. reflexivity.
Qed.
Lemma string_complete d p s rest : aligned d p -> ~ In zero s -> skipn p d = padded (s ++ [zero]) ++ rest ->
  memchr d p = Ok (Some (p + length s)) /\ isZeroPaddingCorrect d (p + length s + 1) = Ok true
  /\ ceil4 (p + length s + 1) = p + length (padded (s ++ [zero])) /\ aligned d (p + length (padded (s ++ [zero])))
  /\ skipn (p + length (padded (s ++ [zero]))) d = rest.
Proof.
  intros A Hs E.
  assert (L : p + length (padded (s ++ [zero])) <= length d).
  { apply (f_equal (@length ascii)) in E. rewrite skipn_length, app_length in E. destruct A as (_ & _ & A). lia. }
  assert (X : length (padded (s ++ [zero])) = ceil4 (length s + 1)) by (rewrite padded_length, app_length; reflexivity).
  pose proof (ceil4_le (length s + 1)) as Q.
  assert (F : firstn (length s + 1) (skipn p d) = s ++ [zero]).
  { rewrite E, padded_eq, <- app_assoc. replace (length s + 1) with (length (s ++ [zero])) by (rewrite app_length; reflexivity). apply firstn_app_exact. }
  split; [|split; [|split; [|split]]].
  - unfold memchr. destruct (Nat.ltb_spec (length d) p) as [L'|_]; [lia|].
    replace (index0 (skipn p d)) with (Some (length s)); [reflexivity|]. symmetry. apply index0_some.
    exists s, (repeat zero (ceil4 (length (s ++ [zero])) - length (s ++ [zero])) ++ rest). rewrite E, padded_eq, <- !app_assoc. auto.
  - destruct (padding_spec d p (length s + 1) A ltac:(lia)) as (b & B1 & B2 & _). rewrite <- Nat.add_assoc, B1. f_equal. apply B2.
    rewrite F, <- X, E. apply firstn_app_exact.
  - rewrite X, <- Nat.add_assoc. apply ceil4_add. apply A.
  - rewrite X in *. now apply aligned_step.
  - rewrite skipn_add, E, skipn_app, skipn_all, Nat.sub_diag. reflexivity.
Qed.

(** *** Messages *)
Definition reads (m : message) (e : N * content) : Prop :=
  m_err m = None /\ m_time m = fst e /\ m_address m = c_address (snd e) /\ m_tags m = map arg_tag (c_args (snd e))
  /\ Forall2 (holds (m_storage m)) (m_arguments m) (c_args (snd e)).
Definition sane_message (m : message) : Prop := sane (m_tags m) (m_arguments m).

Lemma slice_string d p s x r : skipn p d = s ++ x :: r -> slice d p (p + length s) = s.
Proof. intros H. unfold slice. rewrite H. replace (p + length s - p) with (length s) by lia. apply firstn_app_exact. Qed.

Lemma build_sound d t : length d mod 4 = 0 ->
  match buildFromRawData d t with
  | Ok m => m_err m = None -> length (m_tags m) = length (m_arguments m) /\
              (sane_message m -> exists c, valid_message c /\ d = encode_message c /\ reads m (t, c))
  | _ => False
  end.
Proof.
  intros D. assert (A0 : aligned d 0) by (split; [exact D|split; [reflexivity|lia]]).
  unfold buildFromRawData. pose proof (string_sound d 0 A0) as S1.
  destruct (memchr d 0) as [[ae|]|e|] eqn:M1; try easy; cbn [bind]. destruct S1 as (Z1 & b & P1 & S1). rewrite P1. cbn [bind].
  destruct b; cbn [negb]; [|discriminate]. destruct (S1 eq_refl) as (s & Hs & E1 & C1 & F1 & A1). clear S1.
  destruct (skipn_cons_lt 0 d Z1) as (c0 & l0 & E0). rewrite (get_skipn _ _ _ _ E0). cbn [bind].
  destruct (Ascii.eqb_spec c0 "/") as [->|N]; cbn [negb]; [|discriminate].
  pose proof (string_sound d (ceil4 (ae + 1)) A1) as S2.
  destruct (memchr d (ceil4 (ae + 1))) as [[te|]|e|] eqn:M2; try easy; cbn [bind]. destruct S2 as (Z2 & b & P2 & S2). rewrite P2. cbn [bind].
  destruct b; cbn [negb]; [|discriminate]. destruct (S2 eq_refl) as (s2 & Hs2 & E2 & C2 & F2 & A2). clear S2.
  destruct (skipn_cons_lt _ d Z2) as (c2 & l2 & E3). rewrite (get_skipn _ _ _ _ E3). cbn [bind].
  destruct (Ascii.eqb_spec c2 ",") as [->|N]; cbn [negb]; [|discriminate].
  cbn [skipn] in E0, F1. cbn [Nat.add] in E1, C1. subst ae.
  (* the address *)
  assert (D1 : d = padded (s ++ [zero]) ++ skipn (ceil4 (length s + 1)) d).
  { rewrite C1, <- F1 at 1. now rewrite firstn_skipn. }
  assert (SA : slice d 0 (length s) = s).
  { apply (slice_string d 0 s zero (repeat zero (ceil4 (length (s ++ [zero])) - length (s ++ [zero])) ++ skipn (ceil4 (length s + 1)) d)).
    cbn [skipn]. rewrite D1 at 1. rewrite padded_eq, <- !app_assoc. reflexivity. }
  (* the tags *)
  assert (D2 : skipn (ceil4 (length s + 1)) d = padded (s2 ++ [zero]) ++ skipn (ceil4 (te + 1)) d).
  { rewrite C2, skipn_add, <- F2 at 1. now rewrite firstn_skipn. }
  assert (T2 : exists g, s2 = ","%char :: g).
  { rewrite E3 in D2. destruct s2 as [|x g]; [rewrite padded_eq in D2; cbn in D2; discriminate|]. rewrite padded_eq in D2. cbn in D2. injection D2 as <- _. now exists g. }
  destruct T2 as [g ->].
  assert (SG : slice d (ceil4 (length s + 1) + 1) te = g).
  { rewrite E2. cbn [length]. replace (ceil4 (length s + 1) + S (length g)) with (ceil4 (length s + 1) + 1 + length g) by lia.
    apply (slice_string d _ g zero (repeat zero (ceil4 (length (","%char :: g ++ [zero])) - length (","%char :: g ++ [zero])) ++ skipn (ceil4 (te + 1)) d)).
    rewrite skipn_add, D2, padded_eq. cbn [skipn app]. rewrite <- !app_assoc. reflexivity. }
  rewrite SA, SG.
  pose proof (arguments_sound g d (ceil4 (te + 1)) A2) as G.
  destruct (arguments d g (ceil4 (te + 1))) as [[[l q] e]|e|]; try easy; cbn [bind]. destruct G as (G1 & G2 & G3).
  destruct e as [e|]; [discriminate|]. destruct (Nat.eqb_spec q (length d)) as [Q|Q]; cbn [negb]; [|discriminate].
  intros _. destruct (G3 eq_refl) as (G4 & G5). split; [cbn; now rewrite G4|]. unfold sane_message. cbn [m_tags m_arguments]. intros Sn.
  destruct (G5 Sn) as (args & -> & V & W & H). exists (Content s args).
  assert (R : skipn (ceil4 (te + 1)) d = concat (map (fun a => padded (arg_body a)) args)).
  { rewrite <- W. symmetry. apply firstn_all2. rewrite skipn_length. lia. }
  split; [|split].
  - split; [|split; [exact Hs|exact V]]. cbn [c_address]. destruct s as [|x s'].
    + rewrite E0 in D1. cbn in D1. discriminate.
    + rewrite E0, padded_eq in D1. cbn in D1. injection D1 as <- _. now exists s'.
  - unfold encode_message. cbn [c_address c_args]. rewrite D1 at 1. f_equal. rewrite D2 at 1. rewrite R. reflexivity.
  - repeat split. exact H.
Qed.

Lemma encode_message_mod c : length (encode_message c) mod 4 = 0.
Proof.
  unfold encode_message. rewrite !app_length, !padded_length. rewrite mod4_add by apply ceil4_mod. rewrite mod4_add by apply ceil4_mod.
  induction (c_args c) as [|a l IH]; [reflexivity|]. cbn [map concat]. rewrite app_length, padded_length, mod4_add by apply ceil4_mod. exact IH.
Qed.
Lemma tag_not_zero a : arg_tag a <> zero.
Proof. destruct a as [[]| | | | | |]; discriminate. Qed.
Lemma build_complete c t : valid_message c -> exists m, buildFromRawData (encode_message c) t = Ok m /\ reads m (t, c) /\ sane_message m.
Proof.
  intros (H1 & H2 & H3). set (d := encode_message c). pose proof (encode_message_mod c) as D. fold d in D.
  assert (A0 : aligned d 0) by (split; [exact D|split; [reflexivity|lia]]).
  set (g := map arg_tag (c_args c)). set (body := concat (map (fun a => padded (arg_body a)) (c_args c))).
  assert (E0 : d = padded (c_address c ++ [zero]) ++ padded ((","%char :: g) ++ [zero]) ++ body) by reflexivity.
  destruct (string_complete d 0 (c_address c) _ A0 H2 E0) as (M1 & P1 & C1 & A1 & R1). cbn [Nat.add] in *.
  assert (Hg : ~ In zero (","%char :: g)).
  { intros [X|X]; [discriminate|]. unfold g in X. apply in_map_iff in X as (a & X & _). now apply tag_not_zero in X. }
  destruct (string_complete d _ (","%char :: g) _ A1 Hg R1) as (M2 & P2 & C2 & A2 & R2).
  destruct (arguments_complete (c_args c) d _ [] A2 H3 ltac:(rewrite app_nil_r; exact R2)) as (l & G1 & G2).
  unfold buildFromRawData. rewrite M1. cbn [bind]. rewrite P1. cbn [bind negb].
  destruct H1 as [s H1]. assert (Z : get d 0 = Ok "/"%char) by (rewrite E0, H1, padded_eq; reflexivity). rewrite Z. cbn [bind].
  change ("/" =? "/")%char with true. cbn [negb].
  rewrite C1. rewrite M2. cbn [bind]. rewrite P2. cbn [bind negb].
  assert (Z2 : get d (length (padded (c_address c ++ [zero]))) = Ok ","%char).
  { eapply get_skipn. rewrite R1, padded_eq. reflexivity. }
  rewrite Z2. cbn [bind]. change ("," =? ",")%char with true. cbn [negb]. rewrite C2.
  assert (SA : slice d 0 (length (c_address c)) = c_address c).
  { eapply (slice_string d 0). cbn [skipn]. rewrite E0, padded_eq, <- !app_assoc. reflexivity. }
  assert (SG : slice d (length (padded (c_address c ++ [zero])) + 1) (length (padded (c_address c ++ [zero])) + length (","%char :: g)) = g).
  { cbn [length]. replace (length (padded (c_address c ++ [zero])) + S (length g)) with (length (padded (c_address c ++ [zero])) + 1 + length g) by lia.
    eapply slice_string. rewrite skipn_add, R1, padded_eq. cbn [skipn app]. rewrite <- !app_assoc. reflexivity. }
  rewrite SA, SG. unfold g at 1. rewrite G1. cbn [bind].
  assert (Q : length (padded (c_address c ++ [zero])) + length (padded ((","%char :: g) ++ [zero])) + length body = length d).
  { rewrite E0, !app_length. lia. }
  match goal with |- context [negb (?x =? length d)] => assert (QB : (x =? length d) = true) by (apply Nat.eqb_eq; exact Q) end.
  rewrite QB. cbn [negb]. eexists. split; [reflexivity|]. split; [repeat split; exact G2|].
  unfold sane_message, sane. cbn [m_tags m_arguments]. unfold g. clear -G2.
  induction G2 as [|e a l' args He _ IH]; [constructor|]. cbn [map]. constructor; [|exact IH].
  intros T Z. destruct He as [_ He]. rewrite Z in He. cbn [firstn] in He. destruct a as [[]| | | | | |]; try discriminate T.
  cbn [arg_body] in He. apply (f_equal (@length ascii)) in He. rewrite app_length, big_endian_length in He. cbn in He. lia.
Qed.

(** *** Packets *)
Definition element (e : bytes) : bytes := big_endian 4 (N.of_nat (length e)) ++ e.
Definition element_bytes (f : packet) (l : list packet) : bytes :=
  element (encode f) ++ concat (map (fun q => element (encode q)) l).
Definition small (q : packet) : Prop := valid q /\ (N.of_nat (length (encode q)) < 2 ^ 32)%N.

Lemma encode_bundle t f l : encode (Bundle t f l) = bundle_marker ++ big_endian 8 t ++ element_bytes f l.
Proof. reflexivity. Qed.
Lemma starts_spec a : forall d, starts a d = true -> exists r, d = a ++ r.
Proof.
  induction a as [|x a IH]; intros [|y d] H; cbn in H; try discriminate; [now exists []|now exists (y :: d)|].
  apply andb_true_iff in H as [H1 H2]. apply Ascii.eqb_eq in H1. subst y. destruct (IH d H2) as [r ->]. now exists r.
Qed.
Lemma starts_app a r : starts a (a ++ r) = true.
Proof. induction a as [|x a IH]; [now destruct r|]. cbn. now rewrite Ascii.eqb_refl. Qed.
Lemma mod4_N n : (N.of_nat n mod 4 =? 0)%N = (n mod 4 =? 0).
Proof.
  change 4%N with (N.of_nat 4). rewrite <- Nat2N.inj_mod. destruct (Nat.eqb_spec (n mod 4) 0) as [->|H]; [reflexivity|]. apply N.eqb_neq. lia.
Qed.
Lemma mod4_sub n k : n mod 4 = 0 -> k mod 4 = 0 -> (n - k) mod 4 = 0.
Proof.
  intros H K. apply Nat.mod_divides in H as [x ->]; [|lia]. apply Nat.mod_divides in K as [y ->]; [|lia].
  rewrite <- Nat.mul_sub_distr_l, Nat.mul_comm. apply Nat.mod_mul. lia.
Qed.

Lemma parse_sound fuel :
  (forall d t, length d < fuel -> length d mod 4 = 0 ->
     match parse fuel d t with
     | Ok (ms, e) => e = None -> Forall (fun m => m_err m = None /\ length (m_tags m) = length (m_arguments m)) ms /\
         (Forall sane_message ms -> exists p, valid p /\ d = encode p /\ Forall2 reads ms (messages p t))
     | _ => False
     end)
  /\ (forall d t, length d < fuel -> length d mod 4 = 0 -> d <> [] ->
     match elements fuel d t with
     | Ok (ms, e) => e = None -> Forall (fun m => m_err m = None /\ length (m_tags m) = length (m_arguments m)) ms /\
         (Forall sane_message ms -> exists f l, (forall q, In q (f :: l) -> small q) /\ d = element_bytes f l
            /\ Forall2 reads ms (messages f t ++ concat (map (fun q => messages q t) l)))
     | _ => False
     end).
Proof.
  induction fuel as [|fuel [IHp IHe]]; [split; intros; lia|]. split.
  - intros d t L D. cbn [parse]. destruct d as [|c d'] eqn:Ed.
    { intros _. split; [constructor|]. intros _. exists Nothing. repeat constructor. }
    destruct (Ascii.eqb_spec c "#") as [->|N].
    + rewrite <- Ed in *. clear d' Ed. destruct ((20 <=? length d) && starts bundle_marker d) eqn:B; [|discriminate].
      apply andb_true_iff in B as [B1 B2]. apply Nat.leb_le in B1. apply starts_spec in B2 as [r ->].
      rewrite bytes2pod_num by lia. cbn [bind]. change (skipn 16 (bundle_marker ++ r)) with (skipn 8 r).
      change (skipn 8 (bundle_marker ++ r)) with r. change (length (bundle_marker ++ r)) with (8 + length r) in *.
      set (t2 := num (firstn 8 r) 0).
      assert (Lr : length (skipn 8 r) = length r - 8) by apply skipn_length.
      assert (T : r = big_endian 8 t2 ++ skipn 8 r /\ (t2 < 2 ^ 64)%N).
      { assert (X : length (firstn 8 r) = 8) by (rewrite firstn_length; lia). split.
        - rewrite <- (firstn_skipn 8 r) at 1. f_equal. unfold t2. rewrite <- X at 2. now rewrite big_endian_num.
        - pose proof (num_lt (firstn 8 r)) as Y. rewrite X in Y. exact Y. }
      destruct T as [T1 T2].
      assert (IH := IHe (skipn 8 r) t2). destruct (elements fuel (skipn 8 r) t2) as [[ms e]|e|];
        [|apply IH; [lia| |intros X; rewrite X in Lr; cbn in Lr; lia]|apply IH; [lia| |intros X; rewrite X in Lr; cbn in Lr; lia]].
      * intros E. destruct IH as [I1 I2]; [lia| |intros X; rewrite X in Lr; cbn in Lr; lia|exact E|].
        { rewrite Lr. replace (length r - 8) with (8 + length r - 16) by lia. now apply mod4_sub. }
        split; [exact I1|]. intros Sn. destruct (I2 Sn) as (f & l & V & Eq & R). exists (Bundle t2 f l).
        split; [constructor; [exact T2|exact V]|]. split; [|exact R]. rewrite encode_bundle, <- Eq, <- T1. reflexivity.
      * rewrite Lr. replace (length r - 8) with (8 + length r - 16) by lia. now apply mod4_sub.
      * rewrite Lr. replace (length r - 8) with (8 + length r - 16) by lia. now apply mod4_sub.
    + rewrite <- Ed in *. pose proof (build_sound d t D) as B. destruct (buildFromRawData d t) as [m|e|]; try easy. cbn [bind].
      intros E. destruct (B E) as [B1 B2]. split; [constructor; [now split|constructor]|]. intros Sn. inversion Sn as [|? ? S1 _]; subst.
      destruct (B2 S1) as (c' & V & Eq & R). exists (Single c'). split; [now constructor|]. split; [exact Eq|]. constructor; [exact R|constructor].
  - intros d t L D NE. cbn [elements].
    assert (A : aligned d 0) by (split; [exact D|split; [reflexivity|lia]]).
    assert (F : 4 <= length d) by (apply (aligned_four d 0 A); destruct d; [contradiction|cbn; lia]).
    rewrite bytes2pod_num by lia. cbn [bind skipn]. set (sz := num (firstn 4 d) 0).
    assert (B4 : firstn 4 d = big_endian 4 sz /\ (sz < 2 ^ 32)%N).
    { assert (X : length (firstn 4 d) = 4) by (rewrite firstn_length; lia). split.
      - unfold sz. rewrite <- X at 2. now rewrite big_endian_num.
      - pose proof (num_lt (firstn 4 d)) as Y. rewrite X in Y. exact Y. }
    destruct B4 as [B4 B5].
    assert (Es : skipn 4 d = skipn 4 d) by reflexivity. set (rest := skipn 4 d) in *.
    assert (Lr : length rest = length d - 4) by apply skipn_length.
    change (match d with | [] => [] | _ :: l => match l with | [] => [] | _ :: l0 => match l0 with | [] => [] | _ :: l1 => match l1 with | [] => [] | _ :: l2 => l2 end end end end) with rest.
    destruct (N.eqb_spec (sz mod 4) 0) as [M|M]; cbn [negb orb]; [|discriminate].
    destruct (N.ltb_spec (N.of_nat (length rest)) sz) as [Z|Z]; [discriminate|].
    assert (M4 : N.to_nat sz mod 4 = 0).
    { pose proof (mod4_N (N.to_nat sz)) as X. rewrite N2Nat.id, M in X. cbn in X. symmetry in X. now apply Nat.eqb_eq in X. }
    assert (Lf : length (firstn (N.to_nat sz) rest) = N.to_nat sz) by (rewrite firstn_length; lia).
    assert (IH := IHp (firstn (N.to_nat sz) rest) t ltac:(lia) ltac:(now rewrite Lf)).
    destruct (parse fuel (firstn (N.to_nat sz) rest) t) as [[ms e]|e|]; try easy. cbn [bind].
    destruct e as [e|]; [discriminate|]. destruct (IH eq_refl) as [I1 I2]. clear IH.
    assert (Ed : d = big_endian 4 sz ++ firstn (N.to_nat sz) rest ++ skipn (N.to_nat sz) rest).
    { rewrite firstn_skipn, <- B4. symmetry. apply firstn_skipn. }
    assert (El : forall p, firstn (N.to_nat sz) rest = encode p -> big_endian 4 sz ++ firstn (N.to_nat sz) rest = element (encode p)
                   /\ (N.of_nat (length (encode p)) < 2 ^ 32)%N).
    { intros p Ep. unfold element. rewrite <- Ep, Lf, N2Nat.id. split; [reflexivity|exact B5]. }
    assert (L2 : length (skipn (N.to_nat sz) rest) = length d - 4 - N.to_nat sz) by (rewrite skipn_length; lia).
    destruct (skipn (N.to_nat sz) rest) as [|c2 r2] eqn:E2.
    + intros _. split; [exact I1|]. intros Sn. destruct (I2 Sn) as (p & V & Ep & R). destruct (El p Ep) as [El1 El2].
      exists p, []. split; [intros q [<-|[]]; now split|]. split; [unfold element_bytes; cbn [map concat]; rewrite <- El1, app_nil_r; rewrite Ed at 1; now rewrite app_nil_r|].
      cbn [map concat]. now rewrite app_nil_r.
    + rewrite <- E2 in *. assert (NE2 : skipn (N.to_nat sz) rest <> []) by (rewrite E2; discriminate). clear c2 r2 E2.
      assert (IH := IHe (skipn (N.to_nat sz) rest) t ltac:(lia) ltac:(rewrite L2; apply mod4_sub; [apply mod4_sub; [exact D|reflexivity]|exact M4]) NE2).
      destruct (elements fuel (skipn (N.to_nat sz) rest) t) as [[ms' e']|e'|]; try easy. cbn [bind].
      intros E. destruct (IH E) as [J1 J2]. split; [apply Forall_app; now split|]. intros Sn. apply Forall_app in Sn as [S1 S2].
      destruct (I2 S1) as (p & V & Ep & R). destruct (J2 S2) as (f & l & V' & Eq & R'). destruct (El p Ep) as [El1 El2].
      exists p, (f :: l). split; [intros q [<-|Hq]; [now split|now apply V']|]. split.
      * rewrite Ed at 1. rewrite app_assoc, El1, Eq. reflexivity.
      * cbn [map concat]. apply Forall2_app; assumption.
Qed.

Lemma packet_mod : forall p, length (encode p) mod 4 = 0.
Proof.
  fix IH 1. intros [|c|t f l]; [reflexivity|apply encode_message_mod|]. rewrite encode_bundle, !app_length, big_endian_length.
  change (length bundle_marker) with 8. rewrite mod4_add by reflexivity. rewrite mod4_add by reflexivity.
  unfold element_bytes, element. rewrite !app_length, big_endian_length.
  rewrite <- Nat.add_assoc, mod4_add by reflexivity. rewrite mod4_add by apply IH.
  induction l as [|q l IHl]; [reflexivity|]. cbn [map concat]. rewrite !app_length, big_endian_length, <- Nat.add_assoc.
  rewrite mod4_add by reflexivity. rewrite mod4_add by apply IH. exact IHl.
Qed.

Lemma parse_complete fuel :
  (forall p t, length (encode p) < fuel -> valid p ->
     exists ms, parse fuel (encode p) t = Ok (ms, None) /\ Forall2 reads ms (messages p t) /\ Forall sane_message ms)
  /\ (forall f l t, length (element_bytes f l) < fuel -> (forall q, In q (f :: l) -> small q) ->
     exists ms, elements fuel (element_bytes f l) t = Ok (ms, None)
       /\ Forall2 reads ms (messages f t ++ concat (map (fun q => messages q t) l)) /\ Forall sane_message ms).
Proof.
  induction fuel as [|fuel [IHp IHe]]; [split; intros; lia|]. split.
  - intros p t L V. destruct V as [|c V|t2 f l Ht V].
    + exists []. repeat constructor.
    + destruct (build_complete c t V) as (m & B & R & Sn). cbn [encode]. destruct V as ((s & Hs) & _).
      assert (E : exists r, encode_message c = "/"%char :: r) by (unfold encode_message; rewrite Hs, padded_eq; cbn; eexists; reflexivity).
      destruct E as [r E]. cbn [parse]. rewrite E, <- E. change ("/" =? "#")%char with false. cbn match. rewrite B. cbn [bind].
      exists [m]. split; [destruct R as (-> & _); reflexivity|]. repeat constructor; assumption || apply R.
    + rewrite encode_bundle in *. set (r := big_endian 8 t2 ++ element_bytes f l) in *.
      assert (Lr : length r = 8 + length (element_bytes f l)) by (unfold r; rewrite app_length, big_endian_length; reflexivity).
      assert (L4 : 4 <= length (element_bytes f l)) by (unfold element_bytes, element; rewrite !app_length, big_endian_length; lia).
      rewrite app_length in L. change (length bundle_marker) with 8 in L.
      destruct (IHe f l t2 ltac:(lia) V) as (ms & E & R & Sn). exists ms. split; [|split; [exact R|exact Sn]].
      cbn [parse]. change (bundle_marker ++ r) with ("#"%char :: (skipn 1 bundle_marker ++ r)) at 1. change ("#" =? "#")%char with true. cbn match.
      rewrite starts_app. replace (20 <=? length (bundle_marker ++ r)) with true; [|symmetry; apply Nat.leb_le; rewrite app_length; change (length bundle_marker) with 8; lia].
      cbn [andb]. rewrite bytes2pod_num by (rewrite app_length; change (length bundle_marker) with 8; lia). cbn [bind].
      change (skipn 8 (bundle_marker ++ r)) with r. change (skipn 16 (bundle_marker ++ r)) with (skipn 8 r).
      assert (X : firstn 8 r = big_endian 8 t2) by (unfold r; rewrite <- (big_endian_length 8 t2) at 1; apply firstn_app_exact).
      assert (Y : skipn 8 r = element_bytes f l).
      { unfold r. rewrite <- (big_endian_length 8 t2) at 1. rewrite skipn_app, skipn_all, Nat.sub_diag. reflexivity. }
      rewrite X, Y, num_big_endian by exact Ht. exact E.
  - intros f l t L V. destruct (V f (or_introl eq_refl)) as [Vf Sf].
    set (rest := concat (map (fun q => element (encode q)) l)).
    assert (Ed : element_bytes f l = big_endian 4 (N.of_nat (length (encode f))) ++ encode f ++ rest) by (unfold element_bytes, element; now rewrite <- app_assoc).
    rewrite Ed in *. rewrite !app_length, big_endian_length in L.
    destruct (IHp f t ltac:(lia) Vf) as (ms & E & R & Sn).
    cbn [elements]. rewrite bytes2pod_num by (rewrite app_length, big_endian_length; lia). cbn [bind].
    change (skipn 0 (big_endian 4 (N.of_nat (length (encode f))) ++ encode f ++ rest)) with (big_endian 4 (N.of_nat (length (encode f))) ++ encode f ++ rest).
    set (b := big_endian 4 (N.of_nat (length (encode f)))).
    assert (Lb : length b = 4) by apply big_endian_length.
    assert (X : firstn 4 (b ++ encode f ++ rest) = b) by (rewrite <- Lb; apply firstn_app_exact).
    assert (Y : skipn 4 (b ++ encode f ++ rest) = encode f ++ rest) by (rewrite <- Lb, skipn_app, skipn_all, Nat.sub_diag; reflexivity).
    rewrite X, Y. unfold b. rewrite num_big_endian by exact Sf. rewrite mod4_N, packet_mod. cbn [negb orb Nat.eqb].
    rewrite app_length. destruct (N.ltb_spec (N.of_nat (length (encode f) + length rest)) (N.of_nat (length (encode f)))) as [Z|_]; [lia|].
    rewrite Nat2N.id, firstn_app_exact, E. cbn [bind].
    assert (W : skipn (length (encode f)) (encode f ++ rest) = rest) by (rewrite skipn_app, skipn_all, Nat.sub_diag; reflexivity).
    rewrite W. destruct l as [|g l'].
    + exists ms. cbn [map concat]. rewrite app_nil_r. auto.
    + assert (Er : rest = element_bytes g l') by reflexivity.
      destruct (IHe g l' t ltac:(rewrite <- Er; lia) ltac:(intros q Hq; apply V; now right)) as (ms' & E' & R' & Sn').
      rewrite <- Er in E'.
      assert (NE : exists x y, rest = x :: y).
      { rewrite Er. unfold element_bytes, element. destruct (big_endian 4 (N.of_nat (length (encode g)))) as [|x y] eqn:Q.
        - apply (f_equal (@length ascii)) in Q. rewrite big_endian_length in Q. discriminate.
        - eexists. eexists. reflexivity. }
      destruct NE as (x & y & NE). rewrite NE. rewrite <- NE, E'. cbn [bind]. exists (ms ++ ms'). split; [reflexivity|].
      cbn [map concat]. split; [apply Forall2_app; assumption|now apply Forall_app].
Qed.

(** *** Positions of arguments, also in messages with wrong blob sizes *)
Definition located (m : message) : Prop :=
  m_err m = None -> Forall2 (fun t e => aligned (m_storage m) (fst e) /\ getArgSize (m_storage m) t (fst e) = Ok (inl (snd e)))
                      (m_tags m) (m_arguments m).
Lemma arguments_located tags : forall d p l q, aligned d p -> arguments d tags p = Ok (l, q, None) ->
  Forall2 (fun t e => aligned d (fst e) /\ getArgSize d t (fst e) = Ok (inl (snd e))) tags l.
Proof.
  induction tags as [|t tags IH]; intros d p l q A; cbn [arguments]; [intros [= <- <-]; constructor|].
  pose proof (getArgSize_sound d t p A) as G. destruct (getArgSize d t p) as [[n|e]|e|] eqn:E; try easy; cbn [bind].
  destruct G as (_ & G & _). destruct (arguments d tags (p + ceil4 n)) as [[[l' q'] e']|e'|] eqn:E'; try easy; cbn [bind].
  intros [= <- <- ->]. constructor; [now split|]. apply (IH _ _ _ _ (aligned_step d p n A G) E').
Qed.
Lemma build_located d t m : length d mod 4 = 0 -> buildFromRawData d t = Ok m -> located m.
Proof.
  intros D. assert (A0 : aligned d 0) by (split; [exact D|split; [reflexivity|lia]]).
  unfold buildFromRawData. pose proof (string_sound d 0 A0) as S1.
  destruct (memchr d 0) as [[ae|]|e|] eqn:M1; try easy; cbn [bind]; [|intros [= <-] X; discriminate X].
  destruct S1 as (Z1 & b & P1 & S1). rewrite P1. cbn [bind].
  destruct b; cbn [negb]; [|intros [= <-] X; discriminate X]. destruct (S1 eq_refl) as (s & Hs & E1 & C1 & F1 & A1). clear S1.
  destruct (skipn_cons_lt 0 d Z1) as (c0 & l0 & E0). rewrite (get_skipn _ _ _ _ E0). cbn [bind].
  destruct (c0 =? "/")%char; cbn [negb]; [|intros [= <-] X; discriminate X].
  pose proof (string_sound d (ceil4 (ae + 1)) A1) as S2.
  destruct (memchr d (ceil4 (ae + 1))) as [[te|]|e|] eqn:M2; try easy; cbn [bind]; [|intros [= <-] X; discriminate X].
  destruct S2 as (Z2 & b & P2 & S2). rewrite P2. cbn [bind].
  destruct b; cbn [negb]; [|intros [= <-] X; discriminate X]. destruct (S2 eq_refl) as (s2 & Hs2 & E2 & C2 & F2 & A2). clear S2.
  destruct (skipn_cons_lt _ d Z2) as (c2 & l2 & E3). rewrite (get_skipn _ _ _ _ E3). cbn [bind].
  destruct (c2 =? ",")%char; cbn [negb]; [|intros [= <-] X; discriminate X].
  destruct (arguments d (slice d (ceil4 (ae + 1) + 1) te) (ceil4 (te + 1))) as [[[l q] e]|e|] eqn:G; try easy; cbn [bind].
  destruct e as [e|]; [intros [= <-] X; discriminate X|]. destruct (q =? length d); cbn [negb]; [|intros [= <-] X; discriminate X].
  intros [= <-] _. exact (arguments_located _ _ _ _ _ A2 G).
Qed.
Lemma parse_located fuel :
  (forall d t ms e, length d mod 4 = 0 -> parse fuel d t = Ok (ms, e) -> Forall located ms)
  /\ (forall d t ms e, length d mod 4 = 0 -> elements fuel d t = Ok (ms, e) -> Forall located ms).
Proof.
  induction fuel as [|fuel [IHp IHe]]; [split; discriminate|]. split; intros d t ms e D.
  - cbn [parse]. destruct d as [|c d'] eqn:Ed; [intros [= <- _]; constructor|]. rewrite <- Ed in *. clear Ed d'.
    destruct (c =? "#")%char.
    + destruct ((20 <=? length d) && starts bundle_marker d) eqn:B; [|intros [= <- _]; constructor].
      destruct (bytes2pod d 8 8 0) as [t2|x|]; try easy. cbn [bind]. apply IHe. rewrite skipn_length. now apply mod4_sub.
    + destruct (buildFromRawData d t) as [m|x|] eqn:B; try easy. cbn [bind]. intros [= <- _]. constructor; [|constructor].
      exact (build_located d t m D B).
  - cbn [elements]. destruct (bytes2pod d 0 4 0) as [sz|x|]; try easy. cbn [bind].
    assert (Dr : length (skipn 4 d) mod 4 = 0) by (rewrite skipn_length; now apply mod4_sub). set (rest := skipn 4 d) in *.
    destruct (N.eqb_spec (sz mod 4) 0) as [M|M]; cbn [negb orb]; [|intros [= <- _]; constructor].
    destruct (N.ltb_spec (N.of_nat (length rest)) sz) as [Z|Z]; [intros [= <- _]; constructor|].
    assert (M4 : N.to_nat sz mod 4 = 0).
    { pose proof (mod4_N (N.to_nat sz)) as X. rewrite N2Nat.id, M in X. cbn in X. symmetry in X. now apply Nat.eqb_eq in X. }
    destruct (parse fuel (firstn (N.to_nat sz) rest) t) as [[ms1 e1]|x|] eqn:P; try easy. cbn [bind].
    assert (I1 := IHp _ _ _ _ ltac:(rewrite firstn_length; replace (Nat.min (N.to_nat sz) (length rest)) with (N.to_nat sz) by lia; exact M4) P).
    destruct e1 as [e1|]; [intros [= <- _]; exact I1|].
    destruct (skipn (N.to_nat sz) rest) as [|c2 r2] eqn:E2; [intros [= <- _]; exact I1|]. rewrite <- E2.
    destruct (elements fuel (skipn (N.to_nat sz) rest) t) as [[ms2 e2]|x|] eqn:P2; try easy. cbn [bind].
    intros [= <- _]. apply Forall_app. split; [exact I1|]. refine (IHe _ _ _ _ _ P2). rewrite skipn_length. now apply mod4_sub.
Qed.

Lemma init_sound d :
  match init d with
  | Ok (ms, e) => Forall located ms /\ (e = None -> Forall (fun m => m_err m = None) ms /\
         (Forall sane_message ms -> exists p, valid p /\ d = encode p /\ Forall2 reads ms (messages p 1)))
  | _ => False
  end.
Proof.
  unfold init. destruct (Nat.eqb_spec (length d mod 4) 0) as [D|D]; [|split; [constructor|discriminate]].
  pose proof (proj1 (parse_sound (S (length d))) d 1%N ltac:(lia) D) as P.
  destruct (parse (S (length d)) d 1) as [[ms e]|x|] eqn:E; try easy. split; [exact (proj1 (parse_located _) _ _ _ _ D E)|].
  intros N. destruct (P N) as [P1 P2]. split; [|exact P2]. eapply Forall_impl; [|exact P1]. intros m Hm. apply Hm.
Qed.
Lemma init_complete p : valid p ->
  exists ms, init (encode p) = Ok (ms, None) /\ Forall2 reads ms (messages p 1) /\ Forall sane_message ms.
Proof.
  intros V. unfold init. rewrite packet_mod. cbn [Nat.eqb]. apply (proj1 (parse_complete (S (length (encode p))))); [lia|exact V].
Qed.

(** *** Reading arguments *)
Lemma Forall2_nth {A B} (R : A -> B -> Prop) l l' k : Forall2 R l l' ->
  match nth_error l k, nth_error l' k with Some a, Some b => R a b | None, None => True | _, _ => False end.
Proof.
  intros H. revert k. induction H as [|a b l l' Hab H IH]; intros [|k]; cbn; auto. apply IH.
Qed.
Lemma Forall2_len {A B} (R : A -> B -> Prop) l l' : Forall2 R l l' -> length l = length l'.
Proof. induction 1; cbn; congruence. Qed.
Lemma nth_argument m k e : nth_error (m_arguments m) k = Some e -> argument m k = e.
Proof. intros H. unfold argument. now apply nth_error_nth. Qed.
Lemma precheck_reads m t c tag k : reads m (t, c) ->
  precheck m tag (Reader None k) =
    match nth_error (c_args c) k with
    | Some a => if (arg_tag a =? tag)%char then Reader None k else Reader (Some TYPE_MISMATCH) k
    | None => Reader (Some NOT_ENOUGH_ARG) k
    end.
Proof.
  intros (_ & _ & _ & T & H). cbn [snd] in *. unfold precheck. cbn [r_idx r_err]. pose proof (Forall2_len _ _ _ H) as L.
  destruct (Nat.leb_spec (length (m_arguments m)) k) as [Q|Q].
  - rewrite (proj2 (nth_error_None (c_args c) k)) by lia. reflexivity.
  - unfold currentTypeTag. cbn [r_err r_idx]. rewrite T, nth_error_map.
    destruct (nth_error (c_args c) k) as [a|] eqn:E; [|apply nth_error_None in E; lia]. cbn [option_map is_tag]. reflexivity.
Qed.
Lemma pod_reads m t c k a n v : reads m (t, c) -> nth_error (c_args c) k = Some a -> arg_body a = big_endian n v ->
  (v < 256 ^ N.of_nat n)%N -> bytes2pod (m_storage m) (fst (argument m k)) n 0 = Ok v.
Proof.
  intros (_ & _ & _ & _ & H) E B V. cbn [snd] in H. pose proof (Forall2_nth _ _ _ k H) as X. rewrite E in X.
  destruct (nth_error (m_arguments m) k) as [e|] eqn:F; [|easy]. rewrite (nth_argument _ _ _ F). destruct X as [X1 X2].
  assert (L : snd e = n).
  { apply (f_equal (@length ascii)) in X2. rewrite B, big_endian_length, firstn_length, skipn_length in X2. lia. }
  rewrite L in *. rewrite bytes2pod_num by exact X1. rewrite X2, B, num_big_endian by exact V. reflexivity.
Qed.

(** the result of reading argument [k] with the index after it, or the error *)
Definition fetch {A} (f : osc_arg -> option A) (default : A) (args : list osc_arg) (k : nat) : A * reader :=
  match nth_error args k with
  | None => (default, Reader (Some NOT_ENOUGH_ARG) k)
  | Some a => match f a with
              | Some v => (v, Reader None (k + 1))
              | None => (default, Reader (Some TYPE_MISMATCH) k)
              end
  end.
Lemma popPod_reads m t c k tag n f : reads m (t, c) -> (forall a, In a (c_args c) -> valid_arg a) ->
  (forall a v, f a = Some v <-> arg_tag a = tag /\ arg_body a = big_endian n v /\ f a = Some v) ->
  (forall a, arg_tag a = tag -> valid_arg a -> exists v, f a = Some v /\ (v < 256 ^ N.of_nat n)%N) ->
  popPod m tag n (Reader None k) = Ok (fetch f 0%N (c_args c) k).
Proof.
  intros R V F1 F2. unfold popPod, fetch. rewrite (precheck_reads m t c tag k R). destruct (nth_error (c_args c) k) as [a|] eqn:E; [|reflexivity].
  destruct (Ascii.eqb_spec (arg_tag a) tag) as [T|T]; cbn [r_err r_idx].
  - destruct (F2 a T (V a (nth_error_In _ _ E))) as (v & Fv & B). rewrite Fv. apply F1 in Fv as (_ & Bd & _).
    rewrite (pod_reads m t c k a n v R E Bd B). reflexivity.
  - destruct (f a) as [v|] eqn:Fv; [apply F1 in Fv as (X & _); contradiction|reflexivity].
Qed.
Lemma popStr_reads m t c k : reads m (t, c) -> (forall a, In a (c_args c) -> valid_arg a) ->
  popStr m (Reader None k) = Ok (fetch (fun a => option_map Some (string_of a)) None (c_args c) k).
Proof.
  intros R V. unfold popStr, fetch. rewrite (precheck_reads m t c _ k R). destruct (nth_error (c_args c) k) as [a|] eqn:E; [|reflexivity].
  destruct R as (_ & _ & _ & _ & H). cbn [snd] in H. pose proof (Forall2_nth _ _ _ k H) as X. rewrite E in X.
  destruct (nth_error (m_arguments m) k) as [e|] eqn:F; [|easy]. destruct X as [X1 X2]. assert (Va := V a (nth_error_In _ _ E)).
  destruct a as [[]| | | | |s| ]; try reflexivity. cbn [arg_tag]. change ("s" =? "s")%char with true. cbn match. cbn [r_err r_idx].
  rewrite (nth_argument _ _ _ F). cbn [arg_body string_of option_map] in *.
  assert (Sp : exists r, skipn (fst e) (m_storage m) = s ++ zero :: r).
  { exists (skipn (snd e) (skipn (fst e) (m_storage m))). rewrite <- (firstn_skipn (snd e) (skipn (fst e) (m_storage m))) at 1. rewrite X2, <- app_assoc. reflexivity. }
  destruct Sp as [r Sp]. unfold memchr. destruct (Nat.ltb_spec (length (m_storage m)) (fst e)) as [Q|_]; [lia|]. cbn [bind].
  rewrite (proj2 (index0_some (skipn (fst e) (m_storage m)) (length s))) by (exists s, r; auto). cbn [option_map].
  now rewrite (slice_string _ _ _ _ _ Sp).
Qed.
Lemma popBlob_reads m t c k : reads m (t, c) ->
  popBlob m (Reader None k) = Ok (fetch (fun a => option_map Some (blob_of a)) None (c_args c) k).
Proof.
  intros R. unfold popBlob, fetch. rewrite (precheck_reads m t c _ k R). destruct (nth_error (c_args c) k) as [a|] eqn:E; [|reflexivity].
  destruct R as (_ & _ & _ & _ & H). cbn [snd] in H. pose proof (Forall2_nth _ _ _ k H) as X. rewrite E in X.
  destruct (nth_error (m_arguments m) k) as [e|] eqn:F; [|easy]. destruct X as [X1 X2].
  destruct a as [[]| | | | | |s]; try reflexivity. cbn [arg_tag]. change ("b" =? "b")%char with true. cbn match. cbn [r_err r_idx].
  rewrite (nth_argument _ _ _ F). destruct e as [p n]. cbn [fst snd arg_body blob_of option_map] in *.
  assert (L : n = 4 + length s).
  { apply (f_equal (@length ascii)) in X2. rewrite app_length, big_endian_length, firstn_length, skipn_length in X2. lia. }
  destruct (Nat.ltb_spec n 4) as [Q|_]; [lia|]. destruct (Nat.ltb_spec (length (m_storage m)) (p + n)) as [Q|_]; [lia|]. cbn [orb].
  do 3 f_equal. unfold slice. replace (p + n - (p + 4)) with (length s) by lia. rewrite skipn_add.
  rewrite <- (firstn_skipn n (skipn p (m_storage m))). rewrite X2, <- app_assoc.
  rewrite <- (big_endian_length 4 (N.of_nat (length s))) at 1. rewrite skipn_app, skipn_all, Nat.sub_diag. cbn [app skipn]. apply firstn_app_exact.
Qed.
Lemma popBool_reads m t c k : reads m (t, c) ->
  popBool m (Reader None k) = (let '(b, r) := fetch bool_of false (c_args c) k in (b, Reader (r_err r) (k + 1))).
Proof.
  intros (_ & _ & _ & T & H). cbn [snd] in *. unfold popBool, fetch. cbn [r_idx]. pose proof (Forall2_len _ _ _ H) as L.
  destruct (Nat.leb_spec (length (m_arguments m)) k) as [Q|Q].
  - rewrite (proj2 (nth_error_None (c_args c) k)) by lia. reflexivity.
  - unfold currentTypeTag. cbn [r_err r_idx]. rewrite T, nth_error_map.
    destruct (nth_error (c_args c) k) as [a|] eqn:E; [|apply nth_error_None in E; lia]. cbn [option_map is_tag].
    destruct a as [[]| | | | | |]; cbn [arg_tag r_err r_idx]; try reflexivity; rewrite nth_error_map, E; reflexivity.
Qed.

(** *** No argument is read outside of the message *)
Lemma located_precheck m tag r : located m -> m_err m = None -> r_err (precheck m tag r) = None ->
  exists e, nth_error (m_arguments m) (r_idx (precheck m tag r)) = Some e /\ aligned (m_storage m) (fst e)
    /\ getArgSize (m_storage m) tag (fst e) = Ok (inl (snd e)).
Proof.
  intros Lo E. unfold precheck. specialize (Lo E). destruct r as [er k]. unfold set_err. cbn [r_err r_idx].
  destruct (Nat.leb_spec (length (m_arguments m)) k) as [Q|Q]; [destruct er; discriminate|]. destruct er as [er|]; [discriminate|].
  unfold currentTypeTag. cbn [r_err r_idx]. pose proof (Forall2_nth _ _ _ k Lo) as X.
  destruct (nth_error (m_tags m) k) as [t|]; cbn [is_tag r_err r_idx set_err]; [|discriminate].
  destruct (Ascii.eqb_spec t tag) as [->|T]; cbn [r_err r_idx]; [|discriminate]. intros _.
  destruct (nth_error (m_arguments m) k) as [e|]; [|easy]. exists e. split; [reflexivity|exact X].
Qed.
Lemma located_pod m tag n r : located m -> m_err m = None ->
  (forall d p, getArgSize d tag p = check_size d p (N.of_nat n)) -> exists v, popPod m tag n r = Ok v.
Proof.
  intros Lo E G. unfold popPod. destruct (r_err (precheck m tag r)) as [x|] eqn:Pr; [eexists; reflexivity|].
  destruct (located_precheck m tag r Lo E Pr) as (e & E1 & A & E2). rewrite (nth_argument _ _ _ E1). rewrite G in E2.
  pose proof (check_size_sound (m_storage m) (fst e) (N.of_nat n) A) as C. rewrite E2 in C. destruct C as (C1 & C2 & _).
  rewrite bytes2pod_num by lia. cbn [bind]. eexists. reflexivity.
Qed.
Lemma located_str m r : located m -> m_err m = None -> exists v, popStr m r = Ok v.
Proof.
  intros Lo E. unfold popStr. destruct (r_err (precheck m "s" r)) as [x|] eqn:Pr; [eexists; reflexivity|].
  destruct (located_precheck m "s" r Lo E Pr) as (e & E1 & A & E2). rewrite (nth_argument _ _ _ E1). cbn [getArgSize] in E2.
  destruct (memchr (m_storage m) (fst e)) as [[q|]|x|]; cbn [bind] in E2; try discriminate. cbn [bind]. eexists. reflexivity.
Qed.
