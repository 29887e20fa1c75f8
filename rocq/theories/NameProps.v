(** C89: objects created by name, and search paths. *)
From Coq Require Import Ascii Lia String Sorted.
From Verif Require Import Base NameModel NameSpec NameProofs.
Local Open Scope list_scope.

Section Factories.
  Context {A : Type}.
  Definition wrappers (h : list (word * A)) : creators A := fold_left (fun m e => registerWrapper (fst e) (snd e) m) h [].
  Definition algorithms (h : list (word * A)) : creators A := fold_left (fun m e => registerAlgorithm (fst e) (snd e) m) h [].
  Definition interfaces (h : list (word * A)) : creators A := fold_left (fun m e => registerAudioInterfaceType (fst e) (snd e) m) h [].

  Lemma stands_impl (P Q : word -> word -> Prop) : (forall a b, P a b <-> Q a b) ->
    forall (h : list (word * A)) n v, stands_for P h n v -> stands_for Q h n v.
  Proof.
    intros PQ h n v (a & k & b & E & K & B). exists a, k, b. split; [easy|]. split; [now apply PQ|].
    intros e I H. now apply (B e I), PQ.
  Qed.
  Lemma unknown_impl (P Q : word -> word -> Prop) : (forall a b, P a b <-> Q a b) ->
    forall (h : list (word * A)) n, unknown P h n -> unknown Q h n.
  Proof. intros PQ h n U e I H. now apply (U e I), PQ. Qed.

  (** an FFT implementation is created by its name in upper or lower case; if a name is registered
      several times, the first registration counts *)
  Theorem C89_fft h n :
    match createWrapper (wrappers h) n with
    | Ok v => stands_for same_letters h n v
    | Throw e => e = InvalidArgument /\ unknown same_letters h n
    | UB => False
    end.
  Proof.
    pose proof (after_spec to_lower h n) as H. unfold createWrapper.
    change (wrappers h) with (after to_lower h). destruct (find (to_lower n) (after to_lower h)) as [v|].
    - revert H. apply stands_impl. intros a b. apply to_lower_same.
    - split; [easy|]. revert H. apply unknown_impl. intros a b. apply to_lower_same.
  Qed.
  (** delay algorithms and audio interfaces are created by their exact names *)
  Theorem C89_exact h n :
    match createInterface (interfaces h) n with
    | Ok v => stands_for eq h n v
    | Throw e => e = InvalidArgument /\ unknown eq h n
    | UB => False
    end /\
    match createAlgorithm (algorithms h) n with
    | Some v => stands_for eq h n v
    | None => unknown eq h n
    end.
  Proof.
    pose proof (after_spec (fun x => x) h n) as H. unfold createInterface, createAlgorithm.
    change (interfaces h) with (after (fun x => x) h). change (algorithms h) with (after (fun x => x) h).
    destruct (find n (after (fun x => x) h)) as [v|]; repeat split; exact H.
  Qed.
  (** a name stands for one implementation *)
  Theorem C89_unique (same : word -> word -> Prop) (h : list (word * A)) n v w :
    stands_for same h n v -> stands_for same h n w -> v = w.
  Proof. apply stands_for_unique. Qed.

  (** the lists of the names are complete, sorted and without repetition *)
  Theorem C89_lists (h : list (word * A)) :
    (exists ws, comma_list ws (listImplementations (wrappers h)) /\ StronglySorted precedes ws /\ NoDup ws /\
       (forall e, In e h -> exists w, In w ws /\ same_letters (fst e) w) /\
       (forall w, In w ws -> exists e, In e h /\ same_letters (fst e) w)) /\
    (StronglySorted precedes (audioInterfacesList (interfaces h)) /\ NoDup (audioInterfacesList (interfaces h)) /\
       forall w, In w (audioInterfacesList (interfaces h)) <-> exists e, In e h /\ w = fst e).
  Proof.
    assert (ND : forall ws, StronglySorted precedes ws -> NoDup ws).
    { induction 1 as [|w ws S IH F]; constructor; [|easy]. intros I. rewrite Forall_forall in F.
      now apply (precedes_irrefl w), F. }
    assert (Low : forall w, same_letters w (to_lower w)).
    { intros w. apply to_lower_same. unfold to_lower. rewrite map_map. apply map_ext. intros c.
      symmetry. destruct ((65 <=? nat_of_ascii c)%nat && (nat_of_ascii c <=? 90)%nat) eqn:E.
      - assert (L : lower_char c = ascii_of_nat (nat_of_ascii c + 32)) by (unfold lower_char; now rewrite E).
        rewrite L. unfold lower_char. apply andb_true_iff in E as (E1 & E2). apply Nat.leb_le in E1, E2.
        rewrite nat_ascii_embedding by lia.
        destruct (Nat.leb_spec (nat_of_ascii c + 32) 90); [lia|]. now rewrite andb_false_r.
      - assert (L : lower_char c = c) by (unfold lower_char; now rewrite E). now rewrite !L. }
    destruct (after_inv to_lower h [] (Sorted_nil _)) as (S & K & _).
    destruct (after_inv (fun x => x) h [] (Sorted_nil _)) as (S' & K' & _).
    apply Sorted_StronglySorted in S, S'; try (intros a b c; apply precedes_trans).
    split.
    - exists (map fst (wrappers h)). split; [apply list_comma|]. split; [exact S|]. split; [now apply ND|].
      split.
      + intros e I. exists (to_lower (fst e)). split; [apply K; right; now exists e|apply Low].
      + intros w I. apply K in I as [[]|(e & I & ->)]. exists e. split; [easy|apply Low].
    - split; [exact S'|]. split; [now apply ND|]. intros w. unfold audioInterfacesList.
      etransitivity; [apply K'|]. cbn. intuition.
  Qed.
End Factories.

(** the FFT implementations that exist: for all numbers of bits, builds and spellings *)
Theorem C89_libraries ffts ipp t n :
  match createWrapper (fft_table ffts ipp t) n with
  | Ok KissFft => same_letters (str "kissfft") n \/ same_letters (str "default") n
  | Ok Ffts => ffts = true /\ t = Float /\ same_letters (str "ffts") n
  | Ok Ipp => ipp = true /\ same_letters (str "ipp") n
  | Throw e => e = InvalidArgument /\ ~ same_letters (str "kissfft") n /\ ~ same_letters (str "default") n /\
      (ffts = true -> t = Float -> ~ same_letters (str "ffts") n) /\ (ipp = true -> ~ same_letters (str "ipp") n)
  | UB => False
  end.
Proof.
  set (h := [(str "kissfft", KissFft)] ++ (if ffts then match t with Float => [(str "ffts", Ffts)] | Double => [] end else []) ++
            (if ipp then [(str "ipp", Ipp)] else []) ++ [(str "default", KissFft)]).
  assert (E : fft_table ffts ipp t = wrappers h) by (now destruct ffts, ipp, t).
  rewrite E. pose proof (C89_fft h n) as H.
  destruct (createWrapper (wrappers h) n) as [v|e|]; [|destruct H as (-> & U)|easy].
  - destruct H as (a & k & b & Eh & K & _).
    assert (I : In (k, v) h) by (rewrite Eh; apply in_or_app; right; now left).
    clear -I K. subst h. apply in_app_or in I as [[I|[]]|I]; [injection I as <- <-; now left|].
    apply in_app_or in I as [I|I]; [destruct ffts; [destruct t; [destruct I as [I|[]]; injection I as <- <-; easy|easy]|easy]|].
    apply in_app_or in I as [I|[I|[]]]; [|injection I as <- <-; now right].
    destruct ipp; [destruct I as [I|[]]; injection I as <- <-; easy|easy].
  - split; [easy|]. unfold unknown in U.
    split; [|split; [|split]].
    + apply (U (str "kissfft", KissFft)). now left.
    + apply (U (str "default", KissFft)). subst h. rewrite !in_app_iff. right. right. right. now left.
    + intros -> ->. apply (U (str "ffts", Ffts)). subst h. right. now left.
    + intros ->. apply (U (str "ipp", Ipp)). subst h. rewrite !in_app_iff. right. right. left. now left.
Qed.

(** a delay line for float has the interpolator with the order of its name *)
Theorem C89_delay_line n :
  match new_delay_line Float n with
  | Ok k => (n = str "nearestSample" /\ k = 0) \/ (k <= 9 /\ n = str "lagrangeOrder" ++ [ascii_of_nat (48 + k)])
  | Throw e => e = InvalidArgument /\ n <> str "nearestSample" /\ forall k, k <= 9 -> n <> str "lagrangeOrder" ++ [ascii_of_nat (48 + k)]
  | UB => False
  end.
Proof.
  set (h := map (fun e => (str (fst e), snd e)) delay_algorithms).
  pose proof (proj2 (C89_exact h n)) as H. unfold new_delay_line.
  change (delay_table Float) with (algorithms h).
  destruct (createAlgorithm (algorithms h) n) as [v|].
  - destruct H as (a & k & b & Eh & -> & _).
    assert (I : In (n, v) h) by (rewrite Eh; apply in_or_app; right; now left).
    clear -I. cbn in I.
    destruct I as [I|I]; [injection I as <- <-; now left|]. right.
    repeat (destruct I as [I|I]; [injection I as <- <-; split; [lia|reflexivity]|]). easy.
  - split; [easy|]. split.
    + intros ->. apply (H (str "nearestSample", 0)); [now left|easy].
    + intros k Hk ->. apply (H (str "lagrangeOrder" ++ [ascii_of_nat (48 + k)], k)); [|easy].
      do 10 (destruct k as [|k]; [cbn; tauto|]). lia.
Qed.
(** no delay line for double can be created *)
Theorem C89_double_refuted n : new_delay_line Double n = Throw InvalidArgument.
Proof. reflexivity. Qed.

Theorem C89_interfaces jack portaudio n :
  match createInterface (interface_table jack portaudio) n with
  | Ok JackInterface => jack = true /\ n = str "Jack"
  | Ok PortaudioInterface => portaudio = true /\ n = str "PortAudio"
  | Throw e => e = InvalidArgument /\ (jack = true -> n <> str "Jack") /\ (portaudio = true -> n <> str "PortAudio")
  | UB => False
  end.
Proof.
  set (h := (if jack then [(str "Jack", JackInterface)] else []) ++ (if portaudio then [(str "PortAudio", PortaudioInterface)] else [])).
  pose proof (proj1 (C89_exact h n)) as H.
  assert (E : interface_table jack portaudio = interfaces h) by (now destruct jack, portaudio). rewrite E.
  destruct (createInterface (interfaces h) n) as [v|e|]; [|destruct H as (-> & U)|easy].
  - destruct H as (a & k & b & Eh & -> & _).
    assert (I : In (n, v) h) by (rewrite Eh; apply in_or_app; right; now left).
    clear -I. subst h. apply in_app_or in I as [I|I].
    + destruct jack; [destruct I as [I|[]]; injection I as <- <-; easy|easy].
    + destruct portaudio; [destruct I as [I|[]]; injection I as <- <-; easy|easy].
  - split; [easy|]. split.
    + intros -> ->. apply (U (str "Jack", JackInterface)); [now left|easy].
    + intros -> ->. apply (U (str "PortAudio", PortaudioInterface)); [|easy]. subst h. apply in_or_app. right. now left.
Qed.

(** a search path contains the directories that are separated by commas or spaces, which must exist *)
Theorem C89_path exists_path t : exists ds, directories ds t /\
  ((forall d, In d ds -> exists_path d = true) -> pathStringToSequence exists_path t = Ok ds) /\
  (forall d, In d ds -> exists_path d = false -> pathStringToSequence exists_path t = Throw InvalidArgument).
Proof.
  destruct (directories_exist t) as (ds & D). exists ds. split; [easy|].
  unfold pathStringToSequence. rewrite (split_directories ds t D false). cbv zeta. change word with name in *. split.
  - intros H. apply forallb_forall in H. now rewrite H.
  - intros d I N. destruct (forallb exists_path ds) eqn:F; [|easy]. rewrite forallb_forall in F. apply F in I. congruence.
Qed.
Theorem C89_path_unique exists_path ds t : directories ds t -> forall ds', pathStringToSequence exists_path t = Ok ds' -> ds' = ds.
Proof.
  intros D ds'. unfold pathStringToSequence. rewrite (split_directories ds t D false). cbv zeta. change word with name in *.
  destruct forallb; [|easy]. intros H. now apply Ok_inj in H.
Qed.
(** a directory whose name contains a space or a comma cannot be given, though it exists *)
Theorem C89_path_refuted a b c : directory a -> directory b -> separating c ->
  let exists_path d := if list_eq_dec ascii_dec d (a ++ c :: b) then true else false in
  exists_path (a ++ c :: b) = true /\ pathStringToSequence exists_path (a ++ c :: b) = Throw InvalidArgument.
Proof.
  intros Ha Hb Hc ex. split; [unfold ex; now destruct list_eq_dec|].
  assert (D : directories [a; b] (a ++ c :: b)).
  { apply (dir_more []); [constructor|easy|easy|]. apply (dir_last []); [constructor|easy]. }
  unfold pathStringToSequence. rewrite (split_directories _ _ D false). cbn.
  unfold ex at 1. destruct list_eq_dec as [E|_]; [|easy]. destruct Ha as (_ & Fa). rewrite E in Fa.
  apply Forall_app in Fa as (_ & Fa). now inversion Fa.
Qed.

Example C89_ex1 : createWrapper (fft_table true false Float) (str "FFTS") = Ok Ffts /\
  listImplementations (fft_table true true Float) = str "default, ffts, ipp, kissfft" /\
  createWrapper (fft_table true true Double) (str "ffts") = Throw InvalidArgument.
Proof. repeat split. Qed.
Example C89_ex2 : createWrapper (wrappers [(str "A", 1); (str "b", 2); (str "a", 3)]) (str "a") = Ok 1 /\
  audioInterfacesList (interfaces [(str "Jack", 1); (str "ASIO", 2); (str "Jack", 3)]) = [str "ASIO"; str "Jack"].
Proof. repeat split. Qed.
Example C89_ex3 : new_delay_line Float (str "lagrangeOrder3") = Ok 3 /\ new_delay_line Float (str "LagrangeOrder3") = Throw InvalidArgument.
Proof. repeat split. Qed.
Example C89_ex4 : pathStringToSequence (fun _ => true) (str " a/b,, c ,d ") = Ok [str "a/b"; str "c"; str "d"].
Proof. reflexivity. Qed.

Print Assumptions C89_fft.
Print Assumptions C89_exact.
Print Assumptions C89_unique.
Print Assumptions C89_lists.
Print Assumptions C89_libraries.
Print Assumptions C89_delay_line.
Print Assumptions C89_double_refuted.
Print Assumptions C89_interfaces.
Print Assumptions C89_path.
Print Assumptions C89_path_unique.
Print Assumptions C89_path_refuted.
