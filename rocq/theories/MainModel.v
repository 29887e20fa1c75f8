(** Model of the main functions of two programs: src/apps/matrix_convolver/main.cpp 33-184 and
    src/apps/baseline_renderer/main.cpp 34-201 (src/apps/visr_renderer/main.cpp 45-216 has the same
    structure), on Intel processors.

    Simplifications: what the called libraries return or throw is given by a record, one field for
    each call or group of calls without side effects on the program's own state; they do not change
    the control word.  Texts that are written to the console are left out, and so are the
    destructors. *)
From Coq Require Import NArith Ascii.
From Verif Require Import Base Memory DenormModel FilterInitModel OptionModel.
Local Open Scope res_scope.

(** std::getc( stdin ), converted to char: after the end of the input it returns EOF, which
    becomes the character 255 *)
Definition eof_char : ascii := ascii_of_nat 255.
Definition getc (input : list ascii) : ascii * list ascii :=
  match input with [] => (eof_char, []) | c :: rest => (c, rest) end.
(** the loop that waits for a q, matrix_convolver 163-168, baseline_renderer 181-186, for at most
    [n] characters: the remaining input, or None if the loop is still running *)
Fixpoint wait (n : nat) (input : list ascii) : option (list ascii) :=
  match n with
  | 0 => None
  | S n' => let (c, rest) := getc input in if Ascii.eqb c "q" then Some rest else wait n' rest
  end.
(** the loop ends within the input, or never *)
Definition waits_forever (input : list ascii) : bool :=
  match wait (S (length input)) input with Some _ => false | None => true end.

(** what exists under a name: something that cannot be opened, or a file with this content *)
Inductive named := NoSuch | NotReadable | Content (c : word).
(** matrix_convolver 123-149, baseline_renderer 102-128; [option_string] and [option_file] are the
    options audio-ifc-options and audio-ifc-option-file, [fs] the file system *)
Definition spec_conf (fs : word -> named) (option_string option_file : option word) : res word :=
  match option_string, option_file with
  | Some _, Some _ => Throw InvalidArgument
  | None, Some name =>
      match fs name with
      | NoSuch | NotReadable => Throw InvalidArgument
      | Content c => Ok c
      end
  | Some s, None => Ok s
  | None, None => Ok []
  end.

(** calls of the audio interface, in the order in which they have returned *)
Inductive event := Create (conf : word) | Register | Start | Stop | Unregister.
(** how a try block is left: by a return statement with this status, at its end, or not at all *)
Inductive way := Returns (status : nat) | AtEnd | Forever.
(** how a program ends: main returns, with this control word; std::terminate is called; it does
    not end; undefined behaviour *)
Inductive run := Exit (status : nat) (cw : N) (ev : list event) | Terminate | Runs (ev : list event) | Undefined.
Definition EXIT_SUCCESS := 0.
Definition EXIT_FAILURE := 1.

(** a part of the program: the events, and the result *)
Definition part (A : Type) := (list event * res A)%type.
Definition then_ {A B} (p : part A) (f : A -> part B) : part B :=
  match p with
  | (ev, Ok a) => let (ev', r) := f a in (ev ++ ev', r)
  | (ev, Throw x) => (ev, Throw x)
  | (ev, UB) => (ev, UB)
  end.
Definition silent {A} (r : res A) : part A := ([], r).
(** the event is recorded if the call returns *)
Definition call (e : event) (r : res unit) : part unit :=
  match r with Ok _ => ([e], r) | _ => ([], r) end.

(** the audio interface: result of the factory for a configuration, and of the methods *)
Record interface := Interface { create : word -> res unit; register : res unit; start : res unit; stop : res unit; unregister : res unit }.
(** matrix_convolver 154-173, baseline_renderer 168-190: the call of unregisterCallback is commented out
    in the latter *)
Definition session (i : interface) (unregisters : bool) (conf : word) (input : list ascii) : part way :=
  then_ (call (Create conf) (create i conf)) (fun _ =>
  then_ (call Register (register i)) (fun _ =>
  then_ (call Start (start i)) (fun _ =>
  if waits_forever input then silent (Ok Forever)
  else then_ (call Stop (stop i)) (fun _ =>
       if unregisters then then_ (call Unregister (unregister i)) (fun _ => silent (Ok AtEnd))
       else silent (Ok AtEnd))))).

(** surroundings of both programs: result of Options::parse, the two options of the audio interface,
    the file system, the audio interface, the input *)
Record common := Common { parsed : res result; ifc_string : option word; ifc_file : option word;
  files : word -> named; ifc : interface; stdin : list ascii }.

(** ** matrix_convolver *)
(** the switches that list something; the numbers of channels; the number of routings in the option,
    and the option max-routings; initFilterMatrix() with its arguments; the option dsp-optimisation;
    initialiseLibrary(); the convolver and the flow *)
Record mc_env := McEnv { mc_common : common; list_backends : bool; list_ffts : bool; inputs : res nat; outputs : res nat;
  routings : res nat; max_routings : option nat; filters : res unit; opt_dsp : bool; dsp_library : bool; convolver : res unit }.
(** lines 74-149 *)
Definition mc_setup (e : mc_env) : res word :=
  _ <- inputs e ;; _ <- outputs e ;;
  n <- routings e ;;
  let maxFilterRoutings := or_default (max_routings e) n in
  if maxFilterRoutings <? n then Throw InvalidArgument
  else
    _ <- filters e ;;
    _ <- (if opt_dsp e && negb (dsp_library e) then Throw RuntimeError else Ok tt) ;;
    _ <- convolver e ;;
    spec_conf (files (mc_common e)) (ifc_string (mc_common e)) (ifc_file (mc_common e)).
(** the try block, lines 59-176, without the last statement *)
Definition mc_try (e : mc_env) : part way :=
  if list_backends e then silent (Ok (Returns EXIT_SUCCESS))
  else if list_ffts e then silent (Ok (Returns EXIT_SUCCESS))
  else then_ (silent (mc_setup e)) (fun conf => session (ifc (mc_common e)) true conf (stdin (mc_common e))).
(** main; parse() is called before the try block, so nothing catches its exceptions *)
Definition mc_main (e : mc_env) (cw : N) : run :=
  let (cw1, old) := setDenormHandling_default cw in
  match parsed (mc_common e) with
  | UB => Undefined
  | Throw _ => Terminate
  | Ok Failure => Exit EXIT_FAILURE cw1 []
  | Ok Help => Exit EXIT_SUCCESS cw1 []
  | Ok Version => Exit EXIT_SUCCESS cw1 []
  | Ok Success =>
      match mc_try e with
      | (ev, Ok (Returns s)) => Exit s cw1 ev
      | (ev, Ok AtEnd) => Exit EXIT_SUCCESS (resetDenormHandling cw1 old) ev
      | (ev, Ok Forever) => Runs ev
      | (ev, Throw _) => Exit EXIT_FAILURE (resetDenormHandling cw1 old) ev
      | (_, UB) => Undefined
      end
  end.

(** ** baseline_renderer *)
Section Diffusion.
  Context {D : Type} (zero : D).
  (** the matrix that is constructed from an initializer list, basic_matrix.hpp 52-74: the elements
      between the rows are not initialised, here they have the value [pad] *)
  Definition from_lists (pad : D) (alignment rows cols : nat) (values : list (list D)) : res (matrix (D := D)) :=
    if negb (length values =? rows) then Throw InvalidArgument
    else if negb (forallb (fun v => length v =? cols) values) then Throw InvalidArgument
    else let stride := next_aligned cols alignment in
         Ok (Matrix rows cols stride (concat (map (fun v => v ++ repeat pad (stride - cols)) values))).
  (** the loop, lines 147-150: vectorCopy( all.row( idx ), some.row( idx ), len ) for the row indices *)
  Fixpoint copy_filters (all : matrix (D := D)) (len : nat) (idxs : list nat) (some : matrix (D := D)) : res (matrix (D := D)) :=
    match idxs with
    | [] => Ok some
    | idx :: idxs' =>
        row <- mem_read (m_data all) (idx * m_stride all) len ;;
        some' <- m_write_row some idx row ;;
        copy_filters all len idxs' some'
    end.
  (** lines 136-150; [filtersInFile] is 64 and [len] is 63 *)
  Definition diffusion (pad : D) (alignment filtersInFile len : nat) (file : list (list D)) (numberOfLoudspeakers : nat) : res (matrix (D := D)) :=
    all <- from_lists pad alignment filtersInFile len file ;;
    copy_filters all len (seq 0 numberOfLoudspeakers) (m_resize zero alignment numberOfLoudspeakers len).
End Diffusion.
Definition diffusionFilterLength := 63.
Definition diffusionFiltersInFile := 64.

(** the option array-config, and whether the file exists; the number of regular loudspeakers in it; the
    numbers of objects; the renderer and the flow for the diffusion filters *)
Record br_env (D : Type) := BrEnv { br_common : common; array_config : res bool; loudspeakers : res nat; objects : res nat;
  filter_file : list (list D); renderer : matrix (D := D) -> res unit }.
Arguments BrEnv {D}. Arguments br_common {D}. Arguments array_config {D}. Arguments loudspeakers {D}. Arguments objects {D}.
Arguments filter_file {D}. Arguments renderer {D}.
(** the try block from line 68 on, without the last statement *)
Definition br_try {D} (zero pad : D) (alignment : nat) (e : br_env D) : part way :=
  then_ (silent (array_config e)) (fun ex =>
  if negb ex then silent (Ok (Returns EXIT_FAILURE))
  else
    then_ (silent (
      n <- loudspeakers e ;;
      _ <- objects e ;;
      conf <- spec_conf (files (br_common e)) (ifc_string (br_common e)) (ifc_file (br_common e)) ;;
      m <- diffusion zero pad alignment diffusionFiltersInFile diffusionFilterLength (filter_file e) n ;;
      _ <- renderer e m ;; Ok conf))
    (fun conf => session (ifc (br_common e)) false conf (stdin (br_common e)))).
(** main: parse() is called within the try block, and the handler does not reset *)
Definition br_main {D} (zero pad : D) (alignment : nat) (e : br_env D) (cw : N) : run :=
  let (cw1, old) := setDenormHandling_default cw in
  match parsed (br_common e) with
  | UB => Undefined
  | Throw _ => Exit EXIT_FAILURE cw1 []
  | Ok Failure => Exit EXIT_FAILURE cw1 []
  | Ok Help => Exit EXIT_SUCCESS cw1 []
  | Ok Version => Exit EXIT_SUCCESS cw1 []
  | Ok Success =>
      match br_try zero pad alignment e with
      | (ev, Ok (Returns s)) => Exit s cw1 ev
      | (ev, Ok AtEnd) => Exit EXIT_SUCCESS (resetDenormHandling cw1 old) ev
      | (ev, Ok Forever) => Runs ev
      | (ev, Throw _) => Exit EXIT_FAILURE cw1 ev
      | (_, UB) => Undefined
      end
  end.
