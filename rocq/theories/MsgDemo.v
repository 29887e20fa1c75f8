(** A concrete instance of the libraries, for the witnesses of C65.  A number is a multiple
    of half the machine epsilon, or infinity.  The document format is not JSON but likewise
    a text from which the tree can be read. *)
From Coq Require Import String Ascii ZArith.
From Verif Require Import Base IndexSequenceModel IndexSequenceProofs ChannelListModel ChannelListProofs
  ObjectVectorModel MsgModel MsgSpec MsgProofs MsgRound.
Local Open Scope Z_scope.

(** ** Documents: the characters of texts are marked *)
Fixpoint quote (s : text) : text := match s with [] => [] | c :: r => "'"%char :: c :: quote r end.
Fixpoint unquote (l : text) : text * text :=
  match l with
  | m :: c :: r => if Ascii.eqb m "'" then let (a, b) := unquote r in (c :: a, b) else ([], l)
  | _ => ([], l)
  end.
Fixpoint ser (t : tree) : text :=
  match t with
  | Node d ks => quote d ++ (fix go l := match l with
                                         | [] => [")"%char]
                                         | (k, c) :: r => "<"%char :: quote (list_ascii_of_string k) ++ ">"%char :: ser c ++ go r
                                         end) ks
  end.
Definition ser_kids : list (string * tree) -> text :=
  fix go l := match l with
              | [] => [")"%char]
              | (k, c) :: r => "<"%char :: quote (list_ascii_of_string k) ++ ">"%char :: ser c ++ go r
              end.
Fixpoint de (fuel : nat) (l : text) : option (tree * text) :=
  match fuel with
  | O => None
  | S f =>
      let (d, r) := unquote l in
      match de_kids f r with Some (ks, r') => Some (Node d ks, r') | None => None end
  end
with de_kids (fuel : nat) (l : text) : option (list (string * tree) * text) :=
  match fuel with
  | O => None
  | S f =>
      match l with
      | c :: r =>
          if Ascii.eqb c ")" then Some ([], r) else
          let (k, r1) := unquote r in
          match r1 with
          | _ :: r2 =>
              match de f r2 with
              | Some (t, r3) => match de_kids f r3 with
                                | Some (ks, r4) => Some ((string_of_list_ascii k, t) :: ks, r4)
                                | None => None
                                end
              | None => None
              end
          | [] => None
          end
      | [] => None
      end
  end.
Definition of_text (s : text) : option tree := match de (S (S (length s))) s with Some (t, []) => Some t | _ => None end.

(** What follows a quoted text is not a mark. *)
Lemma unquote_quote s c r : Ascii.eqb c "'" = false -> unquote (quote s ++ c :: r) = (s, c :: r).
Proof.
  intros H. induction s as [|a s IH]; cbn [quote app unquote].
  - rewrite H. now destruct r.
  - rewrite IH. reflexivity.
Qed.
Lemma kids_start ks r : exists c r', ser_kids ks ++ r = c :: r' /\ Ascii.eqb c "'" = false.
Proof. destruct ks as [|[k t] ks]; cbn; eauto. Qed.
Fixpoint tree_ind' (P : tree -> Prop) (H : forall d ks, Forall (fun p => P (snd p)) ks -> P (Node d ks)) (t : tree) : P t :=
  match t with
  | Node d ks => H d ks ((fix go l : Forall (fun p => P (snd p)) l :=
                            match l with
                            | [] => Forall_nil _
                            | p :: r => Forall_cons _ (tree_ind' P H (snd p)) (go r)
                            end) ks)
  end.
Lemma de_ser t : forall fuel r, (S (length (ser t)) < fuel)%nat -> de fuel (ser t ++ r) = Some (t, r).
Proof.
  induction t as [d ks H] using tree_ind'. intros fuel r F.
  change (ser (Node d ks)) with (quote d ++ ser_kids ks) in *.
  destruct fuel as [|fuel]; [lia|]. cbn [de]. rewrite <- app_assoc.
  destruct (kids_start ks r) as (c & r' & E & N). rewrite E, (unquote_quote d c r' N), <- E. clear E N c r'.
  assert (K : forall fuel, (length (ser_kids ks) < fuel)%nat -> de_kids fuel (ser_kids ks ++ r) = Some (ks, r)).
  { clear F fuel. induction H as [|[k t] ks Ht _ IH]; intros fuel F.
    - destruct fuel; [lia|]. reflexivity.
    - destruct fuel as [|fuel]; [lia|]. cbn [ser_kids app de_kids].
      change (Ascii.eqb "<" ")") with false. cbn iota. rewrite <- app_assoc. cbn [app].
      rewrite unquote_quote by reflexivity. rewrite <- app_assoc.
      change ((fix go (l : list (string * tree)) : text := match l with
                                         | [] => [")"%char]
                                         | (k, c) :: r => "<"%char :: quote (list_ascii_of_string k) ++ ">"%char :: ser c ++ go r
                                         end) ks) with (ser_kids ks).
      cbn [ser_kids] in F. change ((fix go (l : list (string * tree)) : text := match l with
                                         | [] => [")"%char]
                                         | (k, c) :: r => "<"%char :: quote (list_ascii_of_string k) ++ ">"%char :: ser c ++ go r
                                         end) ks) with (ser_kids ks) in F.
      cbn [length] in F. rewrite app_length in F. cbn [length] in F. rewrite app_length in F.
      cbn [snd] in Ht. rewrite Ht by lia. rewrite IH by lia. now rewrite string_of_list_ascii_of_string. }
  rewrite K; [reflexivity|]. rewrite app_length in F. lia.
Qed.
Lemma of_ser t : of_text (ser t) = Some t.
Proof. unfold of_text. assert (H := de_ser t (S (S (length (ser t)))) [] ltac:(lia)). rewrite app_nil_r in H. now rewrite H. Qed.

(** ** Numbers *)
Definition show_z (x : option Z) : text := match x with Some z => print_ptrdiff z | None => txt "inf" end.
Definition read_z (s : text) : option (option Z) :=
  let (neg, r) := parse_sign s in
  let (ds, rest) := span_digits r in
  match ds, rest with
  | _ :: _, [] => Some (Some (if neg then - digits_value ds else digits_value ds))
  | _, _ => None
  end.
(** six significant digits of numbers up to eight digits *)
Definition round6 (z : Z) : Z := if Z.abs z <? 1000000 then z else z / 100 * 100.
(** numbers separated by commas *)
Fixpoint split (l : text) (cur : text) : list text :=
  match l with
  | [] => [rev cur]
  | c :: r => if Ascii.eqb c "," then rev cur :: split r [] else if is_space c then split r cur else split r (c :: cur)
  end.
Fixpoint read_all (l : list text) : res (list (option Z)) :=
  match l with
  | [] => Ok []
  | s :: r => match read_z s with Some x => bind (read_all r) (fun xs => Ok (x :: xs)) | None => Throw InvalidArgument end
  end.
Definition demo : floats :=
  {| num := option Z; f0 := Some 0; f1 := Some 16777216;
     is0 := fun x => match x with Some z => z =? 0 | None => false end;
     tiny := fun x => match x with Some z => Z.abs z <? 2 | None => false end;
     fdiv := fun x y => match x, y with
                        | Some a, Some b => if b =? 16777216 then Some a else Some (a * 16777216 / b)
                        | _, _ => x end;
     sph := fun az el r => (az, el, r);
     showf := show_z; readf := read_z;
     show6 := fun x => match x with Some z => show_z (Some (round6 z)) | None => show_z x end;
     fseq := fun s => read_all (split s []);
     junk := Some 77; to_json := ser; of_json := of_text |}.

Lemma read_show z : read_z (show_z (Some z)) = Some (Some z).
Proof.
  cbn [show_z]. unfold print_ptrdiff, read_z. destruct (Z.ltb_spec z 0).
  - destruct (digits_print (- z) ltac:(lia)) as (d & ds & P & D & F & V).
    cbn [parse_sign]. rewrite Ascii.eqb_refl. assert (S := span_digits_app (print_size (- z)) [] F I). rewrite app_nil_r in S.
    rewrite S, P. rewrite <- P, V. now rewrite Z.opp_involutive.
  - destruct (digits_print z H) as (d & ds & P & D & F & V). rewrite P. cbn [parse_sign].
    destruct (digit_not_sign d D) as [N1 N2]. rewrite N1, N2. rewrite <- P.
    assert (S := span_digits_app (print_size z) [] F I). rewrite app_nil_r in S. rewrite S. rewrite P, <- P, V. reflexivity.
Qed.
Lemma seven_z x : seven_bit (show_z x).
Proof.
  destruct x as [z|]; [|cbv; repeat constructor; lia]. cbn [show_z]. unfold print_ptrdiff. destruct (Z.ltb_spec z 0).
  - constructor; [cbv; lia|]. apply seven_print. lia.
  - now apply seven_print.
Qed.
Lemma demo_libraries : libraries demo.
Proof.
  split.
  - intros l _. apply of_ser.
  - exact seven_z.
  - intros [z|]; apply seven_z.
  - now intros [z|].
Qed.
Lemma demo_exact z : exact demo (Some z).
Proof. apply read_show. Qed.
