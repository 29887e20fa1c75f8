(** C95: the main functions of the matrix convolver and the baseline renderer (src/apps/matrix_convolver/
    main.cpp, src/apps/baseline_renderer/main.cpp). *)
From Coq Require Import NArith Ascii String.
From Verif Require Import Base Memory DenormModel DenormProps FilterInitModel FilterInitSpec FilterInitProofs OptionModel OptionProps MainModel.
Import ListNotations.
Local Open Scope list_scope.
Local Open Scope nat_scope.

(** ** The loop on the console *)
(** It ends, after reading the first q, if and only if there is one in the input. *)
Theorem C95_console : forall input rest,
  (exists n, wait n input = Some rest) <-> exists before, input = before ++ "q"%char :: rest /\ ~ In "q"%char before.
Proof.
  intros input rest. split.
  - intros (n & H). revert input H. induction n as [|n IH]; intros input H; [discriminate|]. cbn [wait getc] in H. destruct input as [|c input].
    + cbn in H. apply IH in H. destruct H as (b & E & _). destruct b; discriminate.
    + cbn [getc] in H. destruct (Ascii.eqb_spec c "q") as [->|N].
      * injection H as ->. exists []. split; [reflexivity|intros []].
      * destruct (IH _ H) as (b & -> & Hb). exists (c :: b). split; [reflexivity|]. intros [E|E]; [congruence|auto].
  - intros (b & -> & Hb). exists (S (List.length b)). induction b as [|c b IH]; [reflexivity|].
    cbn [List.length app]. cbn [wait getc]. destruct (Ascii.eqb_spec c "q") as [->|N]; [destruct Hb; now left|]. apply IH. intros H. apply Hb. now right.
Qed.
Lemma forever_spec input : waits_forever input = negb (existsb (Ascii.eqb "q") input).
Proof.
  unfold waits_forever. induction input as [|c input IH]; [reflexivity|]. cbn [List.length existsb]. remember (S (List.length input)) as k.
  cbn [wait getc]. rewrite (Ascii.eqb_sym c). destruct (Ascii.eqb "q" c); [reflexivity|]. exact IH.
Qed.
(** The end of the input does not end the program. *)
Theorem C95_end_of_input_refuted : exists input, forall n, wait n input = None.
Proof.
  exists []. induction n as [|n IH]; [reflexivity|]. cbn. exact IH.
Qed.

(** ** The configuration of the audio interface *)
(** It is the option, the content of the file, or empty; it is an error to give both options or the
    name of something that is no readable file. *)
Theorem C95_configuration : forall fs s f,
  match spec_conf fs s f with
  | Ok conf => (s = Some conf /\ f = None) \/ (s = None /\ exists name, f = Some name /\ fs name = Content conf) \/ (s = None /\ f = None /\ conf = [])
  | Throw x => x = InvalidArgument /\ exists name, f = Some name /\ (s <> None \/ forall c, fs name <> Content c)
  | UB => False
  end.
Proof.
  intros fs [s|] [name|]; cbn [spec_conf].
  - split; [reflexivity|]. exists name. split; [reflexivity|]. left. discriminate.
  - left. auto.
  - destruct (fs name) as [| |c] eqn:E.
    + split; [reflexivity|]. exists name. split; [reflexivity|]. right. congruence.
    + split; [reflexivity|]. exists name. split; [reflexivity|]. right. congruence.
    + right. left. eauto.
  - right. right. auto.
Qed.

(** ** The diffusion filters *)
Section Diffusion.
  Context {D : Type} (zero pad : D).
  Lemma padded_read (stride cols : nat) (values : list (list D)) : cols <= stride -> (forall v, In v values -> List.length v = cols) ->
    List.length (concat (map (fun v => v ++ repeat pad (stride - cols)) values)) = stride * List.length values
    /\ forall idx v, nth_error values idx = Some v -> mem_read (concat (map (fun v => v ++ repeat pad (stride - cols)) values)) (idx * stride) cols = Ok v.
  Proof.
    intros L. induction values as [|w values IH]; intros H; cbn [map concat].
    - split; [cbn; lia|]. intros [|idx] v E; discriminate.
    - assert (Lw : List.length w = cols) by (apply H; now left).
      destruct IH as [I1 I2]; [intros v I; apply H; now right|]. assert (Lp : List.length (w ++ repeat pad (stride - cols)) = stride) by (rewrite app_length, repeat_length; lia).
      split; [rewrite app_length, Lp, I1; cbn [List.length]; lia|]. intros [|idx] v E.
      + injection E as ->. cbn [Nat.mul]. unfold mem_read. rewrite app_length, Lp. destruct (Nat.leb_spec (0 + cols) (stride + List.length (concat (map (fun v => v ++ repeat pad (stride - cols)) values)))); [|lia].
        cbn [skipn]. rewrite <- app_assoc, firstn_app, Lw, Nat.sub_diag, <- Lw, firstn_all. cbn [firstn]. now rewrite app_nil_r.
      + cbn [nth_error] in E. specialize (I2 idx v E). unfold mem_read in *. rewrite app_length, Lp. cbn [Nat.mul].
        destruct (Nat.leb_spec (idx * stride + cols) (List.length (concat (map (fun v => v ++ repeat pad (stride - cols)) values)))) as [A|A]; [|discriminate].
        destruct (Nat.leb_spec (stride + idx * stride + cols) (stride + List.length (concat (map (fun v => v ++ repeat pad (stride - cols)) values)))); [|lia].
        rewrite skipn_app, Lp. rewrite (skipn_all2 (n := stride + idx * stride)) by (rewrite Lp; lia). cbn [app]. replace (stride + idx * stride - stride) with (idx * stride) by lia. exact I2.
  Qed.
  Lemma copy_filters_ok (all : matrix (D := D)) len (file : list (list D)) :
    (forall idx v, nth_error file idx = Some v -> List.length v = len /\ mem_read (m_data all) (idx * m_stride all) len = Ok v) ->
    forall idxs (m : matrix (D := D)), shape m -> m_cols m = len -> (forall i, In i idxs -> i < m_rows m /\ i < List.length file) ->
    exists m', copy_filters all len idxs m = Ok m' /\ shape m' /\ m_rows m' = m_rows m /\ m_cols m' = len
      /\ forall i j, j < len -> element m' i j = if existsb (Nat.eqb i) idxs then match nth_error file i with Some v => nth_error v j | None => None end else element m i j.
  Proof.
    intros R. induction idxs as [|idx idxs IH]; intros m S C B; cbn [copy_filters].
    - exists m. auto.
    - destruct (B idx) as [B1 B2]; [now left|]. destruct (nth_error_lt file idx B2) as [v E]. destruct (R idx v E) as [L ->]. cbn [bind].
      destruct (write_row_ok m idx v S B1) as (m1 & E1 & S1 & R1 & C1 & X1); [lia|]. rewrite E1. cbn [bind].
      destruct (IH m1 S1) as (m2 & E2 & S2 & R2 & C2 & X2); [congruence|intros i I; rewrite R1; apply B; now right|].
      exists m2. split; [exact E2|]. split; [exact S2|]. split; [congruence|]. split; [exact C2|]. intros i j J. rewrite X2 by exact J. cbn [existsb].
      destruct (existsb (Nat.eqb i) idxs); [now rewrite orb_true_r|]. rewrite orb_false_r, X1 by lia.
      destruct (Nat.eqb_spec i idx) as [->|N]; [|reflexivity]. rewrite E. cbn [andb]. destruct (Nat.ltb_spec j (List.length v)); [reflexivity|lia].
  Qed.
  (** With at most as many loudspeakers as filters in the file, each loudspeaker gets the filter of its
      index, completely. *)
  Theorem C95_diffusion : forall alignment rows len file n,
    List.length file = rows -> (forall v, In v file -> List.length v = len) -> n <= rows ->
    exists m, diffusion zero pad alignment rows len file n = Ok m /\ m_rows m = n /\ m_cols m = len
      /\ forall i j, i < n -> j < len -> exists v, nth_error file i = Some v /\ element m i j = nth_error v j /\ nth_error v j <> None.
  Proof.
    intros alignment rows len file n L H Hn. unfold diffusion, from_lists. rewrite L, Nat.eqb_refl. cbn [negb].
    replace (forallb (fun v => List.length v =? len) file) with true; [|symmetry; apply forallb_forall; intros v I; apply Nat.eqb_eq; auto]. cbn [negb bind].
    pose proof (next_aligned_le len alignment) as A. destruct (padded_read _ _ file A H) as [P1 P2].
    edestruct (copy_filters_ok (Matrix rows len (next_aligned len alignment) (concat (map (fun v => v ++ repeat pad (next_aligned len alignment - len)) file))) len file) with (idxs := seq 0 n) (m := m_resize zero alignment n len)
      as (m & E & S & R & C & X).
    - intros idx v E. split; [apply H; now apply nth_error_In in E|]. cbn [m_data m_stride]. now apply P2.
    - apply (resize_shape zero alignment n len).
    - reflexivity.
    - intros i I. apply in_seq in I. unfold m_resize. cbn [m_rows]. lia.
    - exists m. split; [exact E|]. split; [exact R|]. split; [exact C|]. intros i j Hi Hj. rewrite X by exact Hj.
      replace (existsb (Nat.eqb i) (seq 0 n)) with true; [|symmetry; apply existsb_exists; exists i; split; [apply in_seq; lia|apply Nat.eqb_refl]].
      destruct (nth_error_lt file i) as [v V]; [lia|]. rewrite V. exists v. split; [reflexivity|]. split; [reflexivity|].
      apply nth_error_Some. rewrite (H v); [exact Hj|]. now apply nth_error_In in V.
  Qed.
  (** A table of another size is rejected. *)
  Theorem C95_diffusion_table : forall alignment rows len file n,
    List.length file <> rows \/ (exists v, In v file /\ List.length v <> len) -> diffusion zero pad alignment rows len file n = Throw InvalidArgument.
  Proof.
    intros alignment rows len file n H. unfold diffusion, from_lists. destruct (Nat.eqb_spec (List.length file) rows) as [E|N]; [|reflexivity].
    destruct (forallb (fun v => List.length v =? len) file) eqn:F; [|reflexivity]. exfalso. destruct H as [H|(v & I & H)]; [contradiction|].
    rewrite forallb_forall in F. apply F, Nat.eqb_eq in I. contradiction.
  Qed.
  (** With more loudspeakers, the loop reads behind the end of the matrix. *)
  Lemma copy_filters_bad (all : matrix (D := D)) len idx : List.length (m_data all) < idx * m_stride all + len ->
    forall idxs (m : matrix (D := D)), In idx idxs -> (forall m x, copy_filters all len idxs m <> Throw x) /\ forall m', copy_filters all len idxs m <> Ok m'.
  Proof.
    intros L idxs. induction idxs as [|i idxs IH]; intros m []; cbn [copy_filters].
    - subst i. unfold mem_read. destruct (Nat.leb_spec (idx * m_stride all + len) (List.length (m_data all))); [lia|]. split; discriminate.
    - split; [intros m1 x|intros m'].
      + unfold mem_read. destruct (_ <=? _); [|discriminate]. cbn [bind]. unfold m_write_row, mem_write. destruct (_ <=? _); [|discriminate]. cbn [bind]. apply IH; assumption.
      + unfold mem_read. destruct (_ <=? _); [|discriminate]. cbn [bind]. unfold m_write_row, mem_write. destruct (_ <=? _); [|discriminate]. cbn [bind]. apply IH; assumption.
  Qed.
  Theorem C95_diffusion_undefined : forall alignment rows len file n,
    List.length file = rows -> (forall v, In v file -> List.length v = len) -> 0 < len -> rows < n -> diffusion zero pad alignment rows len file n = UB.
  Proof.
    intros alignment rows len file n L H Hl Hn. unfold diffusion, from_lists. rewrite L, Nat.eqb_refl. cbn [negb].
    replace (forallb (fun v => List.length v =? len) file) with true; [|symmetry; apply forallb_forall; intros v I; apply Nat.eqb_eq; auto]. cbn [negb bind].
    pose proof (next_aligned_le len alignment) as A. destruct (padded_read _ _ file A H) as [P1 _].
    edestruct (copy_filters_bad (Matrix rows len (next_aligned len alignment) (concat (map (fun v => v ++ repeat pad (next_aligned len alignment - len)) file))) len rows)
      as [T O]; [cbn [m_data m_stride]; rewrite P1, L; lia|apply (in_seq n 0); lia|].
    match goal with |- ?x = UB => destruct x as [m'|x'|] eqn:E end; [now apply O in E|now apply T in E|reflexivity].
  Qed.
End Diffusion.

(** ** The programs *)
(** the calls of a complete session, in order *)
Definition protocol (conf : word) (unregisters : bool) : list event :=
  [Create conf; Register; Start; Stop] ++ (if unregisters then [Unregister] else []).
Definition prefix {A} (a b : list A) : Prop := exists c, b = a ++ c.
(** whatever the run, these are the calls that were made *)
Definition calls (r : run) : list event := match r with Exit _ _ ev | Runs ev => ev | Terminate | Undefined => [] end.

Lemma session_spec i u conf input : prefix (fst (session i u conf input)) (protocol conf u)
  /\ match snd (session i u conf input) with
     | Ok AtEnd => fst (session i u conf input) = protocol conf u /\ In "q"%char input
     | Ok Forever => fst (session i u conf input) = [Create conf; Register; Start] /\ ~ In "q"%char input
     | Ok (Returns _) => False
     | _ => True
     end.
Proof.
  unfold session, protocol, prefix. destruct (create i conf) as [[]| |]; cbn; [|split; eauto|split; eauto].
  destruct (register i) as [[]| |]; cbn; [|split; eauto|split; eauto]. destruct (start i) as [[]| |]; cbn; [|split; eauto|split; eauto].
  assert (Q : waits_forever input = true <-> ~ In "q"%char input).
  { rewrite forever_spec, negb_true_iff, <- not_true_iff_false, existsb_exists. split; intros H I; apply H; [exists "q"%char; auto|].
    destruct I as (x & I & E). apply Ascii.eqb_eq in E. now subst x. }
  destruct (waits_forever input) eqn:W; cbn.
  - split; [eauto|]. split; [reflexivity|]. now apply Q.
  - assert (Q' : In "q"%char input).
    { destruct (in_dec ascii_dec "q"%char input) as [I|N]; [exact I|]. apply Q in N. discriminate. }
    destruct (stop i) as [[]| |]; cbn; [|split; eauto|split; eauto]. destruct u; cbn; [|split; [exists []|]; auto].
    destruct (unregister i) as [[]| |]; cbn; [split; [exists []|]; auto|split; eauto|split; eauto].
Qed.
Lemma try_session {A} (r : res A) (f : A -> part way) : then_ (silent r) f = match r with Ok a => f a | Throw x => ([], Throw x) | UB => ([], UB) end.
Proof. destruct r as [a| |]; [|reflexivity|reflexivity]. cbn. now destruct (f a). Qed.

Definition asks_for_list (e : mc_env) : bool := list_backends e || list_ffts e.
(** the configuration that a program uses *)
Definition configured (c : common) (conf : word) : Prop := spec_conf (files c) (ifc_string c) (ifc_file c) = Ok conf.

Lemma mc_setup_conf e conf : mc_setup e = Ok conf -> configured (mc_common e) conf.
Proof.
  unfold mc_setup, configured. intros H. destruct (inputs e); [|discriminate|discriminate]. destruct (outputs e); [|discriminate|discriminate].
  destruct (routings e) as [n| |]; [|discriminate|discriminate]. cbn [bind] in H. destruct (_ <? _); [discriminate|]. destruct (filters e); [|discriminate|discriminate].
  cbn [bind] in H. destruct (opt_dsp e && _); [discriminate|]. cbn [bind] in H. destruct (convolver e); [|discriminate|discriminate]. exact H.
Qed.
Lemma cw_restored cw : control_word cw -> resetDenormHandling (fst (setDenormHandling_default cw)) (snd (setDenormHandling_default cw)) = cw.
Proof.
  intros C. pose proof (C94_nested [State true true] cw C) as H. cbn [nested] in H. unfold setDenormHandling_default.
  destruct (setDenormHandling cw (State true true)). exact H.
Qed.

(** The matrix convolver calls the audio interface in order, with the configuration from the options,
    and only if the options were parsed and nothing is to be listed. *)
Theorem C95_matrix_convolver_calls : forall e cw,
  calls (mc_main e cw) = [] \/ (parsed (mc_common e) = Ok Success /\ asks_for_list e = false
    /\ exists conf, configured (mc_common e) conf /\ prefix (calls (mc_main e cw)) (protocol conf true)).
Proof.
  intros e cw. unfold mc_main. destruct (setDenormHandling_default cw) as [cw1 old]. destruct (parsed (mc_common e)) as [[]| |]; auto.
  unfold mc_try, asks_for_list. destruct (list_backends e); [auto|]. destruct (list_ffts e); [auto|]. rewrite try_session.
  destruct (mc_setup e) as [conf| |] eqn:E; auto. apply mc_setup_conf in E. pose proof (session_spec (ifc (mc_common e)) true conf (stdin (mc_common e))) as [P _].
  destruct (session _ _ _ _) as [ev [[]|x|]]; cbn [fst calls] in *; try (right; repeat split; now eauto). now left.
Qed.
(** Its exit status is 0 only if it has shown information on request or has run a complete session;
    then, or if an exception was reported, the control word is as before. *)
Theorem C95_matrix_convolver_exit : forall e cw status cw' ev, control_word cw ->
  parsed (mc_common e) = Ok Success -> asks_for_list e = false -> mc_main e cw = Exit status cw' ev ->
  cw' = cw /\ ((status = EXIT_SUCCESS /\ In "q"%char (stdin (mc_common e)) /\ exists conf, configured (mc_common e) conf /\ ev = protocol conf true)
               \/ status = EXIT_FAILURE).
Proof.
  intros e cw status cw' ev C P A H. unfold mc_main in H. rewrite P in H. pose proof (cw_restored cw C) as R.
  destruct (setDenormHandling_default cw) as [cw1 old]. cbn [fst snd] in R. unfold mc_try in H. unfold asks_for_list in A. apply orb_false_iff in A as [A1 A2]. rewrite A1, A2, try_session in H.
  destruct (mc_setup e) as [conf|x|] eqn:E; [|injection H as <- <- <-; auto|discriminate]. apply mc_setup_conf in E.
  pose proof (session_spec (ifc (mc_common e)) true conf (stdin (mc_common e))) as [_ S].
  destruct (session _ _ _ _) as [ev0 [[s| |]|x|]]; cbn [fst snd] in *; try discriminate; [contradiction| |]; injection H as <- <- <-; split; auto.
  left. destruct S as [-> S]. split; [reflexivity|]. split; [exact S|]. eauto.
Qed.
Lemma session_rejected i u conf input : is_ok (create i conf) = false -> fst (session i u conf input) = [].
Proof. intros H. unfold session. destruct (create i conf); [discriminate|reflexivity|reflexivity]. Qed.
(** The factory gets the configuration: if it rejects it, nothing is called. *)
Theorem C95_matrix_convolver_rejected : forall e cw conf,
  configured (mc_common e) conf -> is_ok (create (ifc (mc_common e)) conf) = false -> calls (mc_main e cw) = [].
Proof.
  intros e cw conf F R. unfold mc_main. destruct (setDenormHandling_default cw) as [cw1 old]. destruct (parsed (mc_common e)) as [[]| |]; auto.
  unfold mc_try. destruct (list_backends e); [auto|]. destruct (list_ffts e); [auto|]. rewrite try_session.
  destruct (mc_setup e) as [c| |] eqn:E; auto. apply mc_setup_conf in E. assert (c = conf) by (unfold configured in *; congruence). subst c.
  pose proof (session_rejected (ifc (mc_common e)) true conf (stdin (mc_common e)) R) as X. destruct (session _ _ _ _) as [ev [[]|x|]]; cbn [fst calls] in *; auto.
Qed.
(** Wrong options are an error, requests for information are not; the interface is not used. *)
Theorem C95_matrix_convolver_status : forall e cw,
  (parsed (mc_common e) = Ok Failure -> exists cw', mc_main e cw = Exit EXIT_FAILURE cw' [])
  /\ (parsed (mc_common e) = Ok Help \/ parsed (mc_common e) = Ok Version \/ (parsed (mc_common e) = Ok Success /\ asks_for_list e = true) ->
      exists cw', mc_main e cw = Exit EXIT_SUCCESS cw' []).
Proof.
  intros e cw. unfold mc_main, mc_try, asks_for_list. destruct (setDenormHandling_default cw) as [cw1 old]. split.
  - intros ->. eauto.
  - intros [->|[->|[-> A]]]; eauto. destruct (list_backends e); [cbn; eauto|]. cbn in A. rewrite A. cbn. eauto.
Qed.
(** Too many routings are an error before any filter is loaded. *)
Theorem C95_matrix_convolver_routings : forall e cw n m, control_word cw ->
  parsed (mc_common e) = Ok Success -> asks_for_list e = false -> is_ok (inputs e) = true -> is_ok (outputs e) = true ->
  routings e = Ok n -> max_routings e = Some m -> m < n -> mc_main e cw = Exit EXIT_FAILURE cw [].
Proof.
  intros e cw n m C P A I O R M L. unfold mc_main. rewrite P. pose proof (cw_restored cw C) as W. destruct (setDenormHandling_default cw) as [cw1 old]. cbn [fst snd] in W.
  unfold mc_try. unfold asks_for_list in A. apply orb_false_iff in A as [A1 A2]. rewrite A1, A2, try_session. unfold mc_setup.
  destruct (inputs e); try discriminate. destruct (outputs e); try discriminate. rewrite R, M. cbn [bind or_default].
  destruct (Nat.ltb_spec m n); [|lia]. now rewrite W.
Qed.

(** The baseline renderer: the same calls without the last one. *)
Local Open Scope res_scope.
Section Baseline.
  Context {D : Type} (zero pad : D) (alignment : nat).
  Lemma br_conf (e : br_env D) conf : (n <- loudspeakers e ;; _ <- objects e ;; conf <- spec_conf (files (br_common e)) (ifc_string (br_common e)) (ifc_file (br_common e)) ;;
      m <- diffusion zero pad alignment diffusionFiltersInFile diffusionFilterLength (filter_file e) n ;; _ <- renderer e m ;; Ok conf) = Ok conf -> configured (br_common e) conf.
  Proof.
    unfold configured. intros H. destruct (loudspeakers e) as [n| |]; try discriminate. destruct (objects e); try discriminate. cbn [bind] in H.
    destruct (spec_conf _ _ _); try discriminate. cbn [bind] in H. destruct (diffusion _ _ _ _ _ _ _); try discriminate. cbn [bind] in H. destruct (renderer e _); try discriminate. exact H.
  Qed.
  Theorem C95_baseline_calls : forall (e : br_env D) cw,
    calls (br_main zero pad alignment e cw) = [] \/ (parsed (br_common e) = Ok Success /\ array_config e = Ok true
      /\ exists conf, configured (br_common e) conf /\ prefix (calls (br_main zero pad alignment e cw)) (protocol conf false)).
  Proof.
    intros e cw. unfold br_main. destruct (setDenormHandling_default cw) as [cw1 old]. destruct (parsed (br_common e)) as [[]| |]; auto.
    unfold br_try. rewrite try_session. destruct (array_config e) as [[]| |]; auto. cbn [negb]. rewrite try_session.
    match goal with |- context [match ?x with Ok _ => _ | Throw _ => _ | UB => _ end] => destruct x as [conf| |] eqn:E end; auto.
    apply br_conf in E. pose proof (session_spec (ifc (br_common e)) false conf (stdin (br_common e))) as [P _].
    destruct (session _ _ _ _) as [ev [[]|x|]]; cbn [fst calls] in *; try (right; repeat split; now eauto). now left.
  Qed.
  (** Its exit status is 0 only if it has shown information on request or has run a complete session;
      then the control word is as before. *)
  Theorem C95_baseline_exit : forall (e : br_env D) cw cw' ev, control_word cw ->
    parsed (br_common e) = Ok Success -> br_main zero pad alignment e cw = Exit EXIT_SUCCESS cw' ev ->
    cw' = cw /\ In "q"%char (stdin (br_common e)) /\ exists conf, configured (br_common e) conf /\ ev = protocol conf false.
  Proof.
    intros e cw cw' ev C P H. unfold br_main in H. rewrite P in H. pose proof (cw_restored cw C) as R.
    destruct (setDenormHandling_default cw) as [cw1 old]. cbn [fst snd] in R. unfold br_try in H. rewrite try_session in H.
    destruct (array_config e) as [[]| |]; try discriminate. cbn [negb] in H. rewrite try_session in H.
    match type of H with context [match match ?x with Ok _ => _ | Throw _ => _ | UB => _ end with _ => _ end] => destruct x as [conf| |] eqn:E end; try discriminate.
    apply br_conf in E. pose proof (session_spec (ifc (br_common e)) false conf (stdin (br_common e))) as [_ S].
    destruct (session _ _ _ _) as [ev0 [[s| |]|x|]]; cbn [fst snd] in *; try discriminate; [contradiction|]. injection H as <- <-.
    destruct S as [-> S]. split; [exact R|]. split; [exact S|]. eauto.
  Qed.
  (** Wrong options and a missing array configuration are errors, requests for information are not; the
      interface is not used. *)
  Theorem C95_baseline_status : forall (e : br_env D) cw,
    (parsed (br_common e) = Ok Failure \/ (parsed (br_common e) = Ok Success /\ array_config e = Ok false) -> exists cw', br_main zero pad alignment e cw = Exit EXIT_FAILURE cw' [])
    /\ (parsed (br_common e) = Ok Help \/ parsed (br_common e) = Ok Version -> exists cw', br_main zero pad alignment e cw = Exit EXIT_SUCCESS cw' []).
  Proof.
    intros e cw. unfold br_main, br_try. destruct (setDenormHandling_default cw) as [cw1 old]. split.
    - intros [->|[-> A]]; [eauto|]. rewrite A. cbn. eauto.
    - intros [->| ->]; eauto.
  Qed.
  (** More than 64 loudspeakers: undefined behaviour, when nothing else is wrong. *)
  Theorem C95_baseline_loudspeakers_refuted : forall (e : br_env D) cw n,
    parsed (br_common e) = Ok Success -> array_config e = Ok true -> loudspeakers e = Ok n -> is_ok (objects e) = true ->
    is_ok (spec_conf (files (br_common e)) (ifc_string (br_common e)) (ifc_file (br_common e))) = true ->
    List.length (filter_file e) = 64 -> (forall v, In v (filter_file e) -> List.length v = 63) -> 64 < n ->
    br_main zero pad alignment e cw = Undefined.
  Proof.
    intros e cw n P A L O S F1 F2 N. unfold br_main. destruct (setDenormHandling_default cw) as [cw1 old]. rewrite P. unfold br_try. rewrite try_session, A. cbn [negb].
    rewrite try_session, L. destruct (objects e); try discriminate. cbn [bind]. destruct (spec_conf _ _ _); try discriminate. cbn [bind].
    rewrite (C95_diffusion_undefined zero pad alignment diffusionFiltersInFile diffusionFilterLength (filter_file e) n F1 F2); [reflexivity|unfold diffusionFilterLength; lia|exact N].
  Qed.
End Baseline.

(** ** What does not hold *)
Definition quiet : interface := Interface (fun _ => Ok tt) (Ok tt) (Ok tt) (Ok tt) (Ok tt).
Definition typed (s : string) : list ascii := list_ascii_of_string s.
Definition some_files (name : word) : named := if word_eqb name (typed "jack.cfg") then Content (typed "{}") else NoSuch.
Definition surroundings (p : res result) (input : string) : common := Common p None (Some (typed "jack.cfg")) some_files quiet (typed input).
Definition mc_example (p : res result) (lists : bool) (most : nat) (input : string) : mc_env :=
  McEnv (surroundings p input) false lists (Ok 2) (Ok 2) (Ok 4) (Some most) (Ok tt) true true (Ok tt).
Definition br_example (p : res result) (n : nat) (file : list (list nat)) : br_env nat :=
  BrEnv (surroundings p "q") (Ok true) (Ok n) (Ok 8) file (fun m => if m_rows m =? 2 then Ok tt else Throw InvalidArgument).
Definition changed (r : run) (cw : N) : Prop := exists s cw' ev, r = Exit s cw' ev /\ cw' <> cw.
(** After showing help or a list, or after a wrong option, the control word is not restored. *)
Theorem C95_information_refuted :
  changed (mc_main (mc_example (Ok Help) false 4 "q") 8064) 8064 /\ changed (mc_main (mc_example (Ok Success) true 4 "q") 8064) 8064
  /\ changed (mc_main (mc_example (Ok Failure) false 4 "q") 8064) 8064.
Proof. repeat split; do 3 eexists; (split; [reflexivity|discriminate]). Qed.
(** An exception from the options terminates the matrix convolver, but is reported by the baseline
    renderer; in turn the latter restores nothing after an exception. *)
Theorem C95_exception_refuted : forall x e cw, parsed (mc_common e) = Throw x -> mc_main e cw = Terminate.
Proof. intros x e cw P. unfold mc_main. destruct (setDenormHandling_default cw). now rewrite P. Qed.
(** Such an exception exists: a wrong option in an option file (C91_file_refuted). *)
Theorem C95_option_file_refuted : exists TString extra valid parser file args,
  let p := r <- parse TString extra valid parser file args ;; Ok (fst r) in
  mc_main (mc_example p false 4 "q") 8064 = Terminate /\ exists cw, br_main 0 0 4 (br_example p 2 []) 8064 = Exit EXIT_FAILURE cw [].
Proof. exists 0, ex_extra, ex_valid, ex_parser, ex_files, [str "@bad"]. cbv zeta. split; [reflexivity|]. eexists. reflexivity. Qed.
Theorem C95_baseline_exception_refuted :
  changed (br_main 0 0 4 (br_example (Throw RuntimeError) 3 []) 8064) 8064 /\ changed (br_main 0 0 4 (br_example (Ok Success) 3 []) 8064) 8064.
Proof. split; do 3 eexists; (split; [reflexivity|discriminate]). Qed.

Example C95_example_console : wait 5 (typed "ab q!") = Some (typed "!") /\ waits_forever (typed "quit") = false /\ waits_forever (typed "exit") = true.
Proof. repeat split. Qed.
Example C95_example_configuration : spec_conf some_files None (Some (typed "jack.cfg")) = Ok (typed "{}") /\ spec_conf some_files None (Some (typed "x")) = Throw InvalidArgument
  /\ spec_conf some_files (Some (typed "{}")) (Some (typed "jack.cfg")) = Throw InvalidArgument /\ spec_conf some_files None None = Ok [].
Proof. repeat split. Qed.
Example C95_example_diffusion : diffusion 0 9 4 3 2 [[1; 2]; [3; 4]; [5; 6]] 2 = Ok (Matrix 2 2 4 [1; 2; 0; 0; 3; 4; 0; 0]) /\ diffusion 0 9 4 3 2 [[1; 2]; [3; 4]; [5; 6]] 4 = UB.
Proof. split; reflexivity. Qed.
Example C95_example_matrix_convolver :
  mc_main (mc_example (Ok Success) false 4 "xq") 8064 = Exit 0 8064 (protocol (typed "{}") true)
  /\ mc_main (mc_example (Ok Success) false 3 "xq") 8064 = Exit 1 8064 [] /\ mc_main (mc_example (Ok Success) false 4 "x") 8064 = Runs [Create (typed "{}"); Register; Start].
Proof. repeat split. Qed.
Example C95_example_status :
  (exists cw, mc_main (mc_example (Ok Version) false 4 "") 8064 = Exit 0 cw []) /\ (exists cw, mc_main (mc_example (Ok Failure) false 4 "") 8064 = Exit 1 cw [])
  /\ is_ok (create (Interface (fun c => if word_eqb c (typed "{}") then Throw InvalidArgument else Ok tt) (Ok tt) (Ok tt) (Ok tt) (Ok tt)) (typed "{}")) = false
  /\ diffusion 0 9 4 3 2 [[1; 2]; [3]; [5; 6]] 2 = Throw InvalidArgument.
Proof. repeat split; eexists; reflexivity. Qed.
Definition filters64 : list (list nat) := map (fun i => repeat i 63) (seq 0 64).
Example C95_example_baseline : br_main 0 0 4 (br_example (Ok Success) 2 filters64) 8064 = Exit 0 8064 (protocol (typed "{}") false)
  /\ br_main 0 0 4 (br_example (Ok Success) 65 filters64) 8064 = Undefined.
Proof.
  split; [vm_compute; reflexivity|]. apply (C95_baseline_loudspeakers_refuted 0 0 4 _ _ 65); try reflexivity; [|lia].
  intros v I. apply in_map_iff in I as (i & <- & _). apply repeat_length.
Qed.

Print Assumptions C95_console.
Print Assumptions C95_end_of_input_refuted.
Print Assumptions C95_configuration.
Print Assumptions C95_diffusion.
Print Assumptions C95_diffusion_table.
Print Assumptions C95_diffusion_undefined.
Print Assumptions C95_matrix_convolver_calls.
Print Assumptions C95_matrix_convolver_exit.
Print Assumptions C95_matrix_convolver_rejected.
Print Assumptions C95_matrix_convolver_status.
Print Assumptions C95_matrix_convolver_routings.
Print Assumptions C95_baseline_calls.
Print Assumptions C95_baseline_exit.
Print Assumptions C95_baseline_status.
Print Assumptions C95_baseline_loudspeakers_refuted.
Print Assumptions C95_information_refuted.
Print Assumptions C95_exception_refuted.
Print Assumptions C95_option_file_refuted.
Print Assumptions C95_baseline_exception_refuted.
