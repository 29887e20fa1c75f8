(** What a loudspeaker array description means, stated on the document alone. *)

From Coq Require Import Ascii String NArith.
From Verif Require Import Base LspModel.

(** ** Text *)

(** A name allowed by the documentation: letters, digits and @ & ( ) + / : - _ *)
Definition id_letters : list ascii :=
  list_ascii_of_string "0123456789ABCDEFGHIJKLMNOPQRSTUVWXYZabcdefghijklmnopqrstuvwxyz@&()+/:_-".
Definition acceptable (n : string) : Prop :=
  n <> EmptyString /\ forall c, In c (list_ascii_of_string n) -> In c id_letters.

(** [n] is [raw] without the blanks and tabs at both ends. *)
Definition blanks (s : string) : Prop := forall c, In c (list_ascii_of_string s) -> c = " "%char \/ c = "009"%char.
Definition starts_blank (s : string) : Prop := exists c r, s = String c r /\ (c = " "%char \/ c = "009"%char).
Definition ends_blank (s : string) : Prop := exists c r, s = (r ++ String c EmptyString)%string /\ (c = " "%char \/ c = "009"%char).
Definition stripped (raw n : string) : Prop :=
  exists l r, raw = (l ++ n ++ r)%string /\ blanks l /\ blanks r /\ ~ starts_blank n /\ ~ ends_blank n.
(** The attribute is given and means the name [n]. *)
Definition denotes (attribute : option string) (n : string) : Prop :=
  exists raw, attribute = Some raw /\ stripped raw n.

(** The text is the list of the names, separated by one or more commas; white space does not count. *)
Fixpoint commas (k : nat) : string := match k with 0 => EmptyString | S k => String ","%char (commas k) end.
Definition no_comma (n : string) : Prop := ~ In ","%char (list_ascii_of_string n).
Inductive separated : list string -> string -> Prop :=
| Sep1 n : n <> EmptyString -> no_comma n -> separated [n] n
| SepS n k ns s : n <> EmptyString -> no_comma n -> separated ns s -> separated (n :: ns) (n ++ commas (S k) ++ s)%string.
(** [t] is [s] with the white space left out. *)
Definition compressed (s t : string) : Prop :=
  list_ascii_of_string t = filter (fun c => if in_dec ascii_dec c [" "; "009"; "010"; "011"; "012"; "013"]%char then false else true)
                             (list_ascii_of_string s).
Definition lists (attribute : option string) (names : list string) : Prop :=
  exists raw text, attribute = Some raw /\ compressed raw text /\ separated names text.

(** The number of channels of [l] below [c]. *)
Definition rank (c : N) (l : list N) : nat := length (filter (fun d => N.ltb d c) l).

Section Spec.
  Context {V B : Type} (K : kit V B).

  (** ** Values given by the elements *)

  (** The position of an element: one cart or one polar child, all coordinates given, except
      that the height or elevation of a plane array may be left out. *)
  Definition third (is2D : bool) (z : option V) (v : V) : Prop := z = Some v \/ (is2D = true /\ z = None /\ v = k_zero K).
  Definition located (is2D : bool) (p : place) (v : V * V * V) : Prop :=
    (exists c x y z, pl_cart p = [c] /\ pl_polar p = [] /\ c_x c = Some x /\ c_y c = Some y /\ third is2D (c_z c) z /\ v = (x, y, z))
    \/ (exists q az el r, pl_cart p = [] /\ pl_polar p = [q] /\ p_az q = Some az /\ third is2D (p_el q) el /\ p_r q = Some r
        /\ v = k_polar2cart K az el r).

  (** The gain and delay adjustment. *)
  Definition gain_is (d : @adjust V) (g : V) : Prop :=
    (ad_gain d = Some g /\ ad_gainDB d = None) \/ (exists x, ad_gain d = None /\ ad_gainDB d = Some x /\ g = k_pow_dB K x)
    \/ (ad_gain d = None /\ ad_gainDB d = None /\ g = k_one K).
  Definition delay_is (d : @adjust V) (t : V) : Prop := ad_delay d = Some t \/ (ad_delay d = None /\ t = k_zero K).

  (** The equaliser of an output: the first filter specification of that name, filled up with
      neutral biquads; neutral biquads only if none is named. *)
  Definition specified (specs : list (@filter_spec B)) (name : string) (f : list B) : Prop :=
    exists pre s post, specs = pre ++ s :: post /\ fs_name s = Some name /\ fs_biquads s = Ok f
      /\ forall s', In s' pre -> fs_name s' <> Some name.
  Definition equalised (eqs : list (@eq_config B)) (eq : option string) (row : option (list B)) : Prop :=
    (eqs = [] /\ row = None)
    \/ exists e n f, eqs = [e] /\ eq_biquads e = Some n
         /\ ((eq = None /\ f = []) \/ exists name, eq = Some name /\ specified (eq_specs e) name f)
         /\ (length f <= n)%nat /\ row = Some (f ++ repeat (k_no_biquad K) (n - length f)).

  (** ** The document as a whole *)

  Definition plane (cf : @config V B) (is2D : bool) : Prop :=
    (cf_dimension cf = Some "2"%string /\ is2D = true) \/ ((cf_dimension cf = None \/ cf_dimension cf = Some "3"%string) /\ is2D = false).
  Definition at_infinity (cf : @config V B) : bool := match cf_infinite cf with Some b => b | None => false end.
  Definition channels_of (cf : @config V B) : list N := flat_map (fun s => match sp_channel s with Some c => [c] | None => [] end) (cf_speakers cf).
  Definition subchannels_of (cf : @config V B) : list N := flat_map (fun s => match sb_channel s with Some c => [c] | None => [] end) (cf_subwoofers cf).

  (** The index of a loudspeaker: loudspeakers by increasing channel, then the virtual ones in document order. *)
  Definition regular (cf : @config V B) (n : string) (k : nat) : Prop :=
    exists s c, In s (cf_speakers cf) /\ denotes (sp_id s) n /\ sp_channel s = Some c /\ k = rank c (channels_of cf).
  Definition virtual_at (cf : @config V B) (n : string) (k : nat) : Prop :=
    exists j v, nth_error (cf_virtuals cf) j = Some v /\ denotes (vi_id v) n /\ k = length (cf_speakers cf) + j.
  Definition numbered (cf : @config V B) (n : string) (k : nat) : Prop := regular cf n k \/ virtual_at cf n k.

  (** The value of the last entry of a list that has the given name. *)
  Definition last_of {A} (entries : list (string * A)) (n : string) (x : A) : Prop :=
    exists pre post, entries = pre ++ (n, x) :: post /\ ~ In n (map fst post).
  Definition mixed (entries : list (string * V)) (n : string) (x : V) : Prop :=
    last_of entries n x \/ (~ In n (map fst entries) /\ x = k_zero K).
  (** The routes of a virtual loudspeaker: linear gains by loudspeaker name. *)
  Definition routes_are (v : @virtual V) (entries : list (string * V)) : Prop :=
    Forall2 (fun r e => denotes (rt_lspId r) (fst e) /\ exists g, rt_gainDB r = Some g /\ snd e = k_dB2linear K g) (vi_routes v) entries.
  (** The weights of a subwoofer. *)
  Definition weights_are (s : @subwoofer V) (entries : list (string * V)) : Prop :=
    lists (sb_assigned s) (map fst entries)
    /\ ((sb_weights s = None /\ forall e, In e entries -> snd e = k_one K)
        \/ exists w, sb_weights s = Some w /\ k_float_sequence K w = Ok (map snd entries)).
  (** The indices of a triplet. *)
  Definition triplet_is (cf : @config V B) (t : triplet) (x : nat * nat * option nat) : Prop :=
    let '(k1, k2, k3) := x in
    (exists n, denotes (tr_l1 t) n /\ numbered cf n k1) /\ (exists n, denotes (tr_l2 t) n /\ numbered cf n k2)
    /\ ((plane cf true /\ k3 = None) \/ (plane cf false /\ exists n k, denotes (tr_l3 t) n /\ numbered cf n k /\ k3 = Some k)).

  (** ** Correct documents *)

  Definition names_ok (cf : @config V B) : Prop :=
    exists ns vs, Forall2 (fun s n => denotes (sp_id s) n /\ acceptable n) (cf_speakers cf) ns
      /\ Forall2 (fun v n => denotes (vi_id v) n /\ acceptable n) (cf_virtuals cf) vs /\ NoDup (ns ++ vs).
  Definition channels_ok (cf : @config V B) : Prop :=
    (forall s, In s (cf_speakers cf) -> exists c, sp_channel s = Some c /\ (1 <= c)%N)
    /\ (forall s, In s (cf_subwoofers cf) -> sb_channel s <> None)
    /\ NoDup (channels_of cf ++ subchannels_of cf).
  Definition output_ok (cf : @config V B) (d : adjust) (eq : option string) : Prop :=
    (exists g, gain_is d g) /\ exists row, equalised (cf_eqs cf) eq row.
  Definition eqs_ok (cf : @config V B) : Prop :=
    cf_eqs cf = [] \/ exists e n, cf_eqs cf = [e] /\ eq_biquads e = Some n
      /\ forall s, In s (eq_specs e) -> (exists name, fs_name s = Some name) /\ exists f, fs_biquads s = Ok f.
  Definition valid (cf : @config V B) : Prop :=
    exists is2D, plane cf is2D /\ eqs_ok cf /\ names_ok cf /\ channels_ok cf
    /\ (forall s, In s (cf_speakers cf) -> (exists v, located is2D (sp_place s) v) /\ output_ok cf (sp_adjust s) (sp_eq s))
    /\ (forall v, In v (cf_virtuals cf) -> (exists x, located is2D (vi_place v) x)
          /\ exists entries, routes_are v entries /\ forall n, In n (map fst entries) -> exists k, regular cf n k)
    /\ (forall t, In t (cf_triplets cf) -> exists x, triplet_is cf t x)
    /\ (forall s, In s (cf_subwoofers cf) -> output_ok cf (sb_adjust s) (sb_eq s)
          /\ exists entries, weights_are s entries /\ forall n, In n (map fst entries) -> exists k, regular cf n k).

  (** The ids of the loudspeakers have no blanks around them. *)
  Definition unpadded (cf : @config V B) : Prop :=
    forall s raw, In s (cf_speakers cf) -> sp_id s = Some raw -> stripped raw raw.
  (** Routes and subwoofers refer to no virtual loudspeaker. *)
  Definition to_regular (cf : @config V B) : Prop :=
    (forall v r n k, In v (cf_virtuals cf) -> In r (vi_routes v) -> denotes (rt_lspId r) n -> ~ virtual_at cf n k)
    /\ (forall s names n k, In s (cf_subwoofers cf) -> lists (sb_assigned s) names -> In n names -> ~ virtual_at cf n k).
End Spec.
