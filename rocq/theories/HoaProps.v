(** C79: decoding of higher-order Ambisonics objects.  C80: gains for diffuse signals. *)
From Coq Require Import ZArith Lia.
From Verif Require Import Base Memory HoaModel HoaSpec HoaProofs.
Local Open Scope res_scope.

Section C79.
  Variable F : Type.
  Variables (zero one : F) (add mul : F -> F -> F).
  Variable real : nat.
  Variable vbap : pos F -> pos F -> list F.
  Hypothesis vbap_length : forall l p, length (vbap l p) = real.

  Notation table := (table F).
  Notation decoder := (decoder F zero add mul vbap).
  Notation hoa_new := (hoa_new F zero add mul real vbap).
  Notation allrad_new := (allrad_new F zero add mul real vbap).
  Notation process := (process F zero add mul vbap).
  Notation overlay := (overlay F).
  Notation latest := (latest F).

  (** a block of the history: change of the listener, gain input, objects *)
  Definition block := (option (pos F) * matrix F * list object)%type.
  Definition processed (h : hoa F) (blocks : list block) : res (hoa F) :=
    fold_left (fun r b => h <- r ;; let '(changed, input, objects) := b in ' (h', _) <- process h changed input objects ;; Ok h') blocks (Ok h).
  Definition acceptable (C H : nat) (b : block) : Prop :=
    let '(_, input, objects) := b in (exists f, table input real C f) /\ Forall (small H) objects.
  Definition changes (blocks : list block) : list (option (pos F)) := map (fun b => fst (fst b)) blocks.

  (** C79: the construction succeeds exactly for a square number of harmonics, a regular array without
      virtual loudspeakers and a column of the decoder for each of them; otherwise it throws. *)
  Theorem C79_construct : forall C (a : array F) dm alignment l R S' D,
    table dm R S' D ->
    ((exists k, R = (k + 1) * (k + 1)) /\ S' = length (a_positions F a) /\ a_regular F a = length (a_positions F a) ->
       exists h, hoa_new C a dm alignment l = Ok h /\
         table (r_decode F (h_allrad F h)) R real (decoder (a_positions F a) D l)) /\
    (~ ((exists k, R = (k + 1) * (k + 1)) /\ S' = length (a_positions F a) /\ a_regular F a = length (a_positions F a)) ->
       hoa_new C a dm alignment l = Throw InvalidArgument).
  Proof.
    intros C a dm alignment l R S' D T. split.
    - intros (HK & -> & Hr). destruct (hoa_new_ok F zero add mul real vbap vbap_length C a dm alignment l R D Hr T HK) as (h & E & _ & Td & _).
      exists h. auto.
    - apply hoa_new_throw with (1 := T).
  Qed.

  Lemma reached_ready C (a : array F) dm alignment l R S' D h blocks h' :
    table dm R S' D -> hoa_new C a dm alignment l = Ok h ->
    Forall (acceptable C R) blocks -> processed h blocks = Ok h' ->
    ready F zero add mul real vbap (a_positions F a) R C D (latest l (changes blocks)) h'.
  Proof.
    intros T E Hb E'.
    assert (P : (exists k, R = (k + 1) * (k + 1)) /\ S' = length (a_positions F a) /\ a_regular F a = length (a_positions F a)).
    { destruct (((Nat.sqrt_up R - 1 + 1) * (Nat.sqrt_up R - 1 + 1) =? R) && negb (R =? 0)) eqn:K1;
        [apply square_root in K1|].
      - destruct (Nat.eq_dec S' (length (a_positions F a))), (Nat.eq_dec (a_regular F a) (length (a_positions F a)));
          [auto|..]; rewrite (hoa_new_throw F zero add mul real vbap C a dm alignment l R S' D T) in E by tauto; discriminate.
      - rewrite (hoa_new_throw F zero add mul real vbap C a dm alignment l R S' D T) in E; [discriminate|].
        intros (K & _). apply square_root in K. congruence. }
    destruct P as (K & -> & Hr).
    destruct (hoa_new_ok F zero add mul real vbap vbap_length C a dm alignment l R D Hr T K) as (h0 & E0 & Rd).
    rewrite E0 in E. apply Ok_inj in E. subst h0. clear E0.
    revert l h Rd E'. induction blocks as [|[[c i] o] blocks IH]; intros l h Rd E'; cbn in *.
    - apply Ok_inj in E'. subst. exact Rd.
    - inversion Hb as [|? ? Ha H2]; subst. unfold acceptable in Ha. destruct Ha as [[f Hi] Ho].
      destruct (process_total _ _ _ _ _ _ vbap_length _ _ _ _ _ _ c _ _ o Rd Hi Ho) as (h1 & ok & E1 & R1).
      unfold processed in *. cbn [fold_left] in E'. cbn [bind] in E'. rewrite E1 in E'. cbn in E'. apply (IH H2 _ _ R1 E').
  Qed.

  (** C79: after any sequence of blocks with objects up to the order of the decoder, the next one is
      processed without exception or undefined behaviour, whatever its channels. *)
  Theorem C79_total : forall C (a : array F) dm alignment l R S' D h blocks,
    table dm R S' D -> hoa_new C a dm alignment l = Ok h ->
    Forall (acceptable C R) blocks -> exists h', processed h blocks = Ok h'.
  Proof.
    intros C a dm alignment l R S' D h blocks T E Hb. induction blocks as [|b blocks IH] using rev_ind; [eexists; reflexivity|].
    apply Forall_app in Hb as [Hb1 Hb2]. destruct (IH Hb1) as [h1 E1].
    pose proof (reached_ready _ _ _ _ _ _ _ _ _ _ _ T E Hb1 E1) as Rd.
    unfold processed, block in *. rewrite fold_left_app, E1. cbn. destruct b as [[c i] o]. inversion Hb2 as [|? ? Ha _]; subst. unfold acceptable in Ha. destruct Ha as [[f Hi] Ho].
    destruct (process_total _ _ _ _ _ _ vbap_length _ _ _ _ _ _ c _ _ o Rd Hi Ho) as (h2 & ok & E2 & _). rewrite E2. cbn. eauto.
  Qed.

  (** C79: the columns of the channels of Ambisonics objects hold the gains of the decoder for the
      latest position of the listener, all others the given gains. *)
  Theorem C79_decodes : forall C (a : array F) dm alignment l R S' D h blocks h' changed input f objects,
    table dm R S' D -> hoa_new C a dm alignment l = Ok h ->
    Forall (acceptable C R) blocks -> processed h blocks = Ok h' ->
    table input real C f -> Forall (fits C R) objects ->
    exists h'', process h' changed input objects = Ok (h'', true) /\
      table (h_output F h'') real C
        (overlay (signals objects) (decoder (a_positions F a) D (latest l (changes blocks ++ [changed]))) f).
  Proof.
    intros C a dm alignment l R S' D h blocks h' changed input f objects T E Hb E' Ti Ho.
    pose proof (reached_ready _ _ _ _ _ _ _ _ _ _ _ T E Hb E') as Rd.
    unfold HoaSpec.latest. rewrite fold_left_app. apply (process_ok _ _ _ _ _ _ vbap_length _ _ _ _ _ _ changed _ _ objects Rd Ti Ho).
  Qed.

  (** C79: an object whose number of signals does not fit its order ends the block with an error; the
      objects before it are decoded, those after it are not, and the changed flag stays set. *)
  Theorem C79_incomplete : forall C (a : array F) dm alignment l R S' D h blocks h' changed input f pre chs order post,
    table dm R S' D -> hoa_new C a dm alignment l = Ok h ->
    Forall (acceptable C R) blocks -> processed h blocks = Ok h' ->
    table input real C f -> Forall (fits C R) pre -> (0 <= order < 65535)%Z -> ~ complete chs order ->
    exists h'', process h' changed input (pre ++ HoaSource chs order :: post) = Ok (h'', false) /\
      table (h_output F h'') real C
        (overlay (signals pre) (decoder (a_positions F a) D (latest l (changes blocks ++ [changed]))) f).
  Proof.
    intros C a dm alignment l R S' D h blocks h' changed input f pre chs order post T E Hb E' Ti Ho Hr Hn.
    pose proof (reached_ready _ _ _ _ _ _ _ _ _ _ _ T E Hb E') as Rd.
    unfold HoaSpec.latest. rewrite fold_left_app. apply (process_incomplete _ _ _ _ _ _ vbap_length _ _ _ _ _ _ changed _ _ pre chs order post Rd Ti Ho Hr Hn).
  Qed.

  (** C79: so does an object with a channel that does not exist, but its signals before that one are
      decoded. *)
  Theorem C79_range : forall C (a : array F) dm alignment l R S' D h blocks h' changed input f pre good bad rest order post,
    table dm R S' D -> hoa_new C a dm alignment l = Ok h ->
    Forall (acceptable C R) blocks -> processed h blocks = Ok h' ->
    table input real C f -> Forall (fits C R) pre -> complete (good ++ bad :: rest) order ->
    Forall (fun ch => ch < C) good -> C <= bad -> length good <= R ->
    exists h'', process h' changed input (pre ++ HoaSource (good ++ bad :: rest) order :: post) = Ok (h'', false) /\
      table (h_output F h'') real C
        (overlay (signals pre ++ combine good (seq 0 (length good)))
           (decoder (a_positions F a) D (latest l (changes blocks ++ [changed]))) f).
  Proof.
    intros C a dm alignment l R S' D h blocks h' changed input f pre good bad rest order post T E Hb E' Ti Ho Hc Hg Hbad Hl.
    pose proof (reached_ready _ _ _ _ _ _ _ _ _ _ _ T E Hb E') as Rd.
    unfold HoaSpec.latest. rewrite fold_left_app.
    apply (process_range _ _ _ _ _ _ vbap_length _ _ _ _ _ _ changed _ _ pre good bad rest order post Rd Ti Ho Hc Hg Hbad Hl).
  Qed.

  (** C79: an object of an order above that of the decoder always makes the calculator read beyond the
      decoder matrix. *)
  Theorem C79_high_order : forall C (a : array F) dm alignment l R S' D h blocks h' changed input f pre chs order post,
    table dm R S' D -> hoa_new C a dm alignment l = Ok h ->
    Forall (acceptable C R) blocks -> processed h blocks = Ok h' ->
    table input real C f -> Forall (fits C R) pre -> complete chs order ->
    Forall (fun ch => ch < C) chs -> R < length chs -> 0 < real ->
    process h' changed input (pre ++ HoaSource chs order :: post) = UB.
  Proof.
    intros C a dm alignment l R S' D h blocks h' changed input f pre chs order post T E Hb E' Ti Ho Hc Hg Hl Hr.
    pose proof (reached_ready _ _ _ _ _ _ _ _ _ _ _ T E Hb E') as Rd.
    apply (process_ub _ _ _ _ _ _ vbap_length _ _ _ _ _ _ changed _ _ pre chs order post Rd Ti Ho Hc Hg Hl Hr).
  Qed.

  (** C79: constructed directly with virtual loudspeakers in the regular array and a decoder for all of
      them, panning::AllRAD reads positions beyond its matrix; without virtual ones it has the gains
      for a listener in the origin. *)
  Theorem C79_allrad : forall (a : array F) coeffs alignment order D,
    a_regular F a <= length (a_positions F a) ->
    table coeffs ((order + 1) * (order + 1)) (length (a_positions F a)) D ->
    match allrad_new a coeffs alignment order with
    | Ok r => a_regular F a = length (a_positions F a) /\
              table (r_decode F r) ((order + 1) * (order + 1)) real (decoder (a_positions F a) D (zero, zero, zero))
    | Throw _ => False
    | UB => a_regular F a < length (a_positions F a)
    end.
  Proof.
    intros a coeffs alignment order D Hr T. destruct (Nat.eq_dec (a_regular F a) (length (a_positions F a))) as [He|Hn].
    - destruct (allrad_new_ok F zero add mul real vbap vbap_length a coeffs alignment order D He T) as (r & E & _ & Td). rewrite E. auto.
    - rewrite (allrad_new_virtual F zero add mul real vbap vbap_length a coeffs alignment order D) by (assumption || lia). lia.
  Qed.

  (** C79: a decoder with a number of rows or columns that does not fit is rejected. *)
  Theorem C79_allrad_rejects : forall (a : array F) coeffs alignment order R S' D,
    table coeffs R S' D -> R <> (order + 1) * (order + 1) \/ S' <> length (a_positions F a) ->
    allrad_new a coeffs alignment order = Throw InvalidArgument.
  Proof.
    intros a coeffs alignment order R S' D T H. unfold HoaModel.allrad_new, getNumSpeakers.
    rewrite (t_rows _ _ _ _ _ T), (t_cols _ _ _ _ _ T).
    destruct (Nat.eqb_spec R ((order + 1) * (order + 1))) as [E1|E1]; cbn [negb]; [|reflexivity].
    destruct (Nat.eqb_spec S' (length (a_positions F a))) as [E2|E2]; cbn [negb]; [|reflexivity].
    destruct H; contradiction.
  Qed.
End C79.

Section C80.
  Variable F : Type.
  Variables (zero one : F).
  (** C80: the diffuse gain of a channel is that of the last object with exactly this channel, 1 for a
      diffuse source, the diffuseness of a point source with diffuseness, 0 for all other types and for
      channels without object, whatever the matrix held before. *)
  Theorem C80_gains : forall C gains objects,
    (length gains = C -> exists g, diffuse_process F zero one C gains objects = Ok g /\ length g = C /\
       forall ch, ch < C -> nth_error g ch
         = Some (match mono F objects ch with Some t => diffuseness F zero one t | None => zero end)) /\
    (length gains <> C -> diffuse_process F zero one C gains objects = Throw InvalidArgument).
  Proof.
    intros C gains objects. unfold diffuse_process. split; intros Hl.
    - rewrite Hl, Nat.eqb_refl. cbn. eexists. split; [reflexivity|]. split.
      + destruct C; [|apply (diffuse_nth F zero one (S C) objects 0); lia].
        assert (forall l, fold_left (diffuse_object F zero one 0) l [] = []) as Hz.
        { induction l as [|[chs t] l IH]; [reflexivity|]. cbn [fold_left]. replace (diffuse_object F zero one 0 [] (chs, t)) with (@nil F); [exact IH|].
          unfold diffuse_object. cbn [fst]. destruct chs as [|? [|]]; reflexivity. }
        cbn [repeat]. now rewrite Hz.
      + intros ch Hc. now apply diffuse_nth.
    - destruct (Nat.eqb_spec (length gains) C); [contradiction|]. reflexivity.
  Qed.
End C80.

(** *** Cases *)
Definition xv (l p : pos Z) : list Z := let '(lx, ly, _) := l in let '(x, y, _) := p in [x - lx; y - ly]%Z.
Definition x_array : array Z := Array Z [(1, 0, 0); (0, 2, 0); (-3, 1, 0)]%Z 3.
Definition x_dm : matrix Z := Matrix Z 4 3 3 [1;1;1; 2;0;1; 0;1;0; 3;0;0]%Z.
Definition x_in : matrix Z := Matrix Z 2 6 6 [1;2;3;4;5;6; 7;8;9;10;11;12]%Z.
Definition x_new := hoa_new Z 0%Z Z.add Z.mul 2 xv 6 x_array x_dm 4 (0, 0, 0)%Z.
Definition x_step (c : option (pos Z)) (i : matrix Z) (o : list object) :=
  h <- x_new ;; ' (h', ok) <- process Z 0%Z Z.add Z.mul xv h c i o ;; Ok (m_data Z (h_output Z h'), ok).

(** two objects sharing a channel, in a block with a new listener position *)
Example C79_example :
  x_step None x_in [HoaSource [4; 2; 0; 5] 1; OtherObject; HoaSource [2] 0]
  = Ok ([0;2;-2;4;-2;3;0;0; 2;8;3;10;3;0;0;0]%Z, true) /\
  x_step (Some (1, 1, 0)%Z) x_in [HoaSource [4; 2; 0; 5] 1]
  = Ok ([-1;2;-4;4;-5;0;0;0; 1;8;-2;10;0;-3;0;0]%Z, true).
Proof. split; vm_compute; reflexivity. Qed.
(** errors: three signals for first order; channel 6 does not exist *)
Example C79_example_errors :
  x_step None x_in [HoaSource [1] 0; HoaSource [4; 2; 0] 1; HoaSource [5] 0]
  = Ok ([1;-2;3;4;5;6;0;0; 7;3;9;10;11;12;0;0]%Z, false) /\
  x_step None x_in [HoaSource [1; 6; 2; 3] 1]
  = Ok ([1;-2;3;4;5;6;0;0; 7;3;9;10;11;12;0;0]%Z, false).
Proof. split; vm_compute; reflexivity. Qed.
Example C79_example_table : table Z x_dm 4 3 (fun r c => nth (r * 3 + c) (m_data Z x_dm) 0%Z) /\
                            table Z x_in 2 6 (fun r c => nth (r * 6 + c) (m_data Z x_in) 0%Z).
Proof.
  split; (constructor; cbn [m_rows m_cols m_stride m_data x_dm x_in length]; try reflexivity; try lia);
    intros r c Hr Hc; apply nth_error_nth'; cbn [length]; nia.
Qed.

(** The full claim, that the objects of every block are decoded or rejected, is false: a first-order
    object, complete and with existing channels, for a decoder of order 0. *)
Theorem C79_order_refuted : exists h objects,
  hoa_new Z 0%Z Z.add Z.mul 2 xv 6 x_array (Matrix Z 1 3 3 [1; 1; 1]%Z) 4 (0, 0, 0)%Z = Ok h /\
  Forall (fun o => match o with HoaSource chs order => complete chs order /\ Forall (fun ch => ch < 6) chs | OtherObject => True end) objects /\
  process Z 0%Z Z.add Z.mul xv h None x_in objects = UB.
Proof.
  eexists _, [HoaSource [0; 1; 2; 3] 1%Z]. split; [vm_compute; reflexivity|]. split; [|vm_compute; reflexivity].
  repeat constructor; cbn; lia.
Qed.
(** The size of an object is compared modulo 2^32: an object of order 65535 without any signal passes
    for complete. *)
Theorem C79_wrap_refuted : exists order, (0 <= order < 2 ^ 32)%Z /\ (0 <> (order + 1) * (order + 1))%Z /\
  x_step None x_in [HoaSource [] order] = x_step None x_in [].
Proof. exists 65535%Z. split; [lia|]. split; [lia|]. vm_compute. reflexivity. Qed.
(** The constructor of AllRAD does not reject virtual loudspeakers. *)
Theorem C79_virtual_refuted : exists a coeffs,
  allrad_new Z 0%Z Z.add Z.mul 2 xv a coeffs 4 1 = UB /\ m_cols Z coeffs = getNumSpeakers Z a /\ a_regular Z a <= getNumSpeakers Z a.
Proof.
  exists (Array Z [(1, 0, 0); (0, 2, 0); (-3, 1, 0)]%Z 2), x_dm. split; [vm_compute; reflexivity|]. split; [reflexivity|].
  apply Nat.leb_le. reflexivity.
Qed.
Example C79_example_virtual_throws :
  hoa_new Z 0%Z Z.add Z.mul 2 xv 6 (Array Z [(1, 0, 0); (0, 2, 0); (-3, 1, 0)]%Z 2) x_dm 4 (0, 0, 0)%Z = Throw InvalidArgument /\
  hoa_new Z 0%Z Z.add Z.mul 2 xv 6 x_array (Matrix Z 3 3 3 [1;1;1; 2;0;1; 0;1;0]%Z) 4 (0, 0, 0)%Z = Throw InvalidArgument.
Proof. split; vm_compute; reflexivity. Qed.

Example C80_example :
  diffuse_process Z 0%Z 100%Z 5 [7; 7; 7; 7; 7]%Z
    [([0], DiffuseSource Z); ([1], PointSourceWithDiffuseness Z 30%Z); ([2; 3], DiffuseSource Z); ([4], DiffuseSource Z);
     ([4], OtherType Z); ([9], DiffuseSource Z)] = Ok [100; 30; 0; 0; 0]%Z.
Proof. reflexivity. Qed.

Print Assumptions C79_construct.
Print Assumptions C79_total.
Print Assumptions C79_decodes.
Print Assumptions C79_incomplete.
Print Assumptions C79_range.
Print Assumptions C79_high_order.
Print Assumptions C79_allrad.
Print Assumptions C79_allrad_rejects.
Print Assumptions C79_order_refuted.
Print Assumptions C79_wrap_refuted.
Print Assumptions C79_virtual_refuted.
Print Assumptions C80_gains.
