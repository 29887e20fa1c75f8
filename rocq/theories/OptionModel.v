(** Command line options and option files.

    Sources: src/libapputilities/options.hpp 84-130 and options.cpp 19-120.

    Boost.ProgramOptions and Boost.Tokenizer behave as documented: [parser] is the parser of command
    lines (an arbitrary function, [None]: it throws), which yields options by name with the text of
    their value; a positional argument has the empty name, because no positional options are passed to
    the parser.  Simplifications: composing options and options with several values do not occur in
    Options; notify() calls no functions; errors of the operating system (for instance of absolute())
    do not occur; the options that are stored when parse() fails are not modelled. *)
From Coq Require Import Ascii String.
From Verif Require Import Base.
Local Open Scope res_scope.
Local Open Scope list_scope.
Local Open Scope nat_scope.

Definition word := list ascii.
Definition str (s : string) : word := list_ascii_of_string s.
Definition word_eqb (a b : word) : bool := if list_eq_dec ascii_dec a b then true else false.

(** at_option_parser, options.cpp 23-29 *)
Definition at_option_parser (s : word) : option (word * word) :=
  match s with
  | c :: r => if Ascii.eqb c "@" then Some (str "option-file", r) else None
  | [] => None
  end.

(** boost::escaped_list_separator with escape character backslash, the separators space, equals sign,
    newline and carriage return, and quotation marks, options.cpp 86; boost/token_functions.hpp *)
Definition newline : ascii := ascii_of_nat 10.
Definition is_escape (c : ascii) : bool := Ascii.eqb c (ascii_of_nat 92).
Definition is_quote (c : ascii) : bool := Ascii.eqb c (ascii_of_nat 34).
Definition is_separator (c : ascii) : bool :=
  Ascii.eqb c " " || Ascii.eqb c "=" || Ascii.eqb c newline || Ascii.eqb c (ascii_of_nat 13).
(** do_escape: the character that stands behind the escape character *)
Definition do_escape (c : ascii) : option ascii :=
  if Ascii.eqb c "n" then Some newline
  else if is_quote c || is_separator c || is_escape c then Some c
  else None.
(** the tokens of a text; [tok]: the characters of the current token, [last] of the separator: a
    separator at the end is followed by an empty token; None: throws escaped_list_error *)
Fixpoint tokens (quoted : bool) (tok : word) (l : word) : option (list word) :=
  match l with
  | [] => Some [tok]
  | c :: r =>
      if is_escape c then
        match r with
        | [] => None
        | d :: r' => match do_escape d with Some x => tokens quoted (tok ++ [x]) r' | None => None end
        end
      else if is_separator c then
        if quoted then tokens quoted (tok ++ [c]) r
        else match tokens false [] r with Some ts => Some (tok :: ts) | None => None end
      else if is_quote c then tokens (negb quoted) tok r
      else tokens quoted (tok ++ [c]) r
  end.
Definition tokenize (l : word) : option (list word) :=
  match l with [] => Some [] | _ => tokens false [] l end.

(** type of an option: bool_switch() (options.hpp 120-123) or value< DataType >() (114-117) *)
Inductive kind := Switch | Value (type : nat).
(** a stored value; a switch that is not given has the default value *)
Inductive value := Flag (b : bool) | Text (type : nat) (w : word).
Definition entry := (word * word)%type.
Inductive result := Success | Failure | Version | Help.

Section Options.
  (** type number of std::string *)
  Variable TString : nat.
  (** options that are registered: by the constructor (options.cpp 38-44) and by derived classes *)
  Variable extra : list (word * kind).
  Definition registered : list (word * kind) :=
    [(str "help", Switch); (str "version", Switch); (str "option-file", Value TString)] ++ extra.
  (** the text is a value of the type (boost::program_options::validate) *)
  Variable valid : nat -> word -> bool.

  Definition kind_of (n : word) : option kind :=
    match find (fun e => word_eqb n (fst e)) registered with Some e => Some (snd e) | None => None end.
  Definition vmap := list (word * value).
  Definition vfind (m : vmap) (n : word) : option value :=
    match find (fun e => word_eqb n (fst e)) m with Some e => Some (snd e) | None => None end.

  (** boost::program_options::store: options without name and options of a previous store are skipped,
      a second occurrence and an invalid value are errors; [m]: the given options *)
  Fixpoint store_entries (final : vmap) (m : vmap) (l : list entry) : option vmap :=
    match l with
    | [] => Some m
    | (n, w) :: l' =>
        if word_eqb n [] then store_entries final m l'
        else match vfind final n with
        | Some _ => store_entries final m l'
        | None =>
            match kind_of n with
            | None => None
            | Some k =>
                match vfind m n with
                | Some _ => None
                | None =>
                    match k with
                    | Switch => store_entries final (m ++ [(n, Flag true)]) l'
                    | Value t => if valid t w then store_entries final (m ++ [(n, Text t w)]) l' else None
                    end
                end
            end
        end
    end.
  Definition store (given : vmap) (l : list entry) : option vmap :=
    match store_entries given [] l with Some m => Some (given ++ m) | None => None end.

  (** the contents of mVariablesMap: the given options, and the default value of switches *)
  Definition lookup (given : vmap) (n : word) : option value :=
    match vfind given n with
    | Some v => Some v
    | None => match kind_of n with Some Switch => Some (Flag false) | _ => None end
    end.
  (** options.cpp 111-114 *)
  Definition hasOption (given : vmap) (n : word) : bool :=
    match lookup given n with Some _ => true | None => false end.
  (** options.hpp 89-111, for bool and for the other types *)
  Definition getSwitch (given : vmap) (n : word) : res bool :=
    match lookup given n with Some (Flag b) => Ok b | _ => Throw LogicError end.
  Definition getOption (given : vmap) (t : nat) (n : word) : res word :=
    match lookup given n with
    | Some (Text t' w) => if t' =? t then Ok w else Throw LogicError
    | _ => Throw LogicError
    end.
  (** options.hpp 83-87 *)
  Definition getDefaultedOption (given : vmap) (t : nat) (n : word) (default : word) : res word :=
    if hasOption given n then getOption given t n else Ok default.

  (** parser with an extra parser; contents of the file of that name, if it exists and is no directory *)
  Variable parser : (word -> option (word * word)) -> list word -> option (list entry).
  Variable file : word -> option word.

  (** result of parse() after the options are stored, options.cpp 98-106 *)
  Definition finish (given : vmap) : res (result * vmap) :=
    h <- getSwitch given (str "help") ;;
    if h : bool then Ok (Help, given)
    else
      v <- getSwitch given (str "version") ;;
      if v : bool then Ok (Version, given) else Ok (Success, given).
  (** Options::parse, options.cpp 50-107; exceptions of the tokenizer, the second parser and the second
      store are not caught *)
  Definition parse (args : list word) : res (result * vmap) :=
    match parser at_option_parser args with
    | None => Ok (Failure, [])
    | Some l =>
        match store [] l with
        | None => Ok (Failure, [])
        | Some given =>
            if hasOption given (str "option-file") then
              name <- getOption given TString (str "option-file") ;;
              match file name with
              | None => Ok (Failure, [])
              | Some content =>
                  match tokenize content with
                  | None => Throw RuntimeError
                  | Some fargs =>
                      match parser (fun _ => None) fargs with
                      | None => Throw LogicError
                      | Some fl =>
                          match store given fl with
                          | None => Throw LogicError
                          | Some given' => finish given'
                          end
                      end
                  end
              end
            else finish given
        end
    end.
End Options.
