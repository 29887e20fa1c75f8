(** Proofs about the Jack interface (JackModel.v). *)
From Coq Require Import String.
From Verif Require Import Base Memory IndexSequenceModel IndexSequenceProofs ChannelListModel ChannelListProofs JackModel.
Local Open Scope res_scope.
Local Open Scope nat_scope.

Lemma text_eqb_spec a b : reflect (a = b) (text_eqb a b).
Proof. unfold text_eqb. destruct (list_eq_dec ascii_dec a b); constructor; assumption. Qed.
Lemma text_eqb_refl a : text_eqb a a = true.
Proof. destruct (text_eqb_spec a a) as [|N]; [reflexivity|exfalso; apply N; reflexivity]. Qed.

(** ** Specification of the port configuration *)
(** The names an entry stands for: the base name with the given indices, or numbered from 0
    over all channels if the base name or the indices are missing. *)
Inductive entry_gives (num : nat) (d : direction) : portconf -> list text -> Prop :=
| Gives_indexed b t l x : index_sequence t = Ok l -> length l <= num ->
    entry_gives num d {| p_base := Some b; p_indices := Some t; p_ext := x |}
                (map (fun n => b ++ print_size n) l)
| Gives_numbered b x :
    entry_gives num d {| p_base := Some b; p_indices := None; p_ext := x |}
                (map (fun n => b ++ print_size (Z.of_nat n)) (seq 0 num))
| Gives_default i x :
    entry_gives num d {| p_base := None; p_indices := i; p_ext := x |}
                (map (fun n => port_type d ++ print_size (Z.of_nat n)) (seq 0 num)).

Definition or_else {T} (o : option T) (x : T) : T := match o with Some y => y | None => x end.

(** The external ports that go with an entry: [None] is no "externalport" up to there *)
Inductive ext_gives (num : nat) (d : direction) : option extconf -> list text -> Prop :=
| Ext_default :
    ext_gives num d None
      (map (fun n => txt "system" ++ txt ":" ++ ext_type d ++ print_size (Z.of_nat n)) (seq 1 num))
| Ext_numbered c b :
    ext_gives num d (Some {| x_client := c; x_name := b; x_indices := None |})
      (map (fun n => or_else c (txt "system") ++ txt ":" ++ or_else b (ext_type d)
                     ++ print_size (Z.of_nat n)) (seq 1 num))
| Ext_indexed c b t l : index_sequence t = Ok l ->
    ext_gives num d (Some {| x_client := c; x_name := b; x_indices := Some t |})
      (map (fun n => or_else c (txt "system") ++ txt ":" ++ or_else b (ext_type d)
                     ++ print_size n) l).
(** each entry takes the "externalport" of the last entry that has one *)
Fixpoint inherited (cur : option extconf) (l : list portconf) : list (option extconf) :=
  match l with
  | [] => []
  | e :: r => let c := match p_ext e with Some x => Some x | None => cur end in c :: inherited c r
  end.

Lemma entry_names_ok num d e ns : entry_names num d e = Ok ns <-> entry_gives num d e ns.
Proof.
  destruct e as [b i x]. unfold entry_names. cbn [p_base p_indices]. split.
  - destruct i as [t|], b as [b|]; intros H.
    + destruct (index_sequence t) as [l| |] eqn:E; cbn [bind] in H; try discriminate.
      destruct (Nat.ltb_spec num (length l)) as [L|L]; [discriminate|]. injection H as H. subst ns.
      apply Gives_indexed; assumption.
    + injection H as H. subst ns. apply Gives_default.
    + injection H as H. subst ns. apply Gives_numbered.
    + injection H as H. subst ns. apply Gives_default.
  - intros H. inversion H; subst; cbn [p_base p_indices].
    + match goal with K : index_sequence _ = Ok _ |- _ => rewrite K end. cbn [bind].
      destruct (Nat.ltb_spec num (length l)) as [L|L]; [lia|]. reflexivity.
    + reflexivity.
    + destruct i; reflexivity.
Qed.
Lemma entry_gives_length num d e ns : entry_gives num d e ns ->
  length ns <= num /\ ((p_base e = None \/ p_indices e = None) -> length ns = num).
Proof.
  intros H. inversion H; subst; cbn [p_base p_indices]; rewrite map_length; try rewrite seq_length; (split; [lia|]).
  - intros [E|E]; discriminate.
  - reflexivity.
  - reflexivity.
Qed.

(** the optionals of the loop as an external port description *)
Definition sticky (s : loading) (cur : option extconf) (d : direction) : Prop :=
  match cur with
  | None => l_client s = None /\ l_extbase s = None /\ l_extind s = None
            \/ l_client s = Some (txt "system") /\ l_extbase s = Some (ext_type d) /\ l_extind s = None
  | Some x => l_client s = Some (or_else (x_client x) (txt "system"))
              /\ l_extbase s = Some (or_else (x_name x) (ext_type d)) /\ l_extind s = x_indices x
  end.

Lemma numbered_assoc a b n : numbered (a ++ txt ":" ++ b) n = a ++ txt ":" ++ b ++ print_size n.
Proof. unfold numbered. rewrite <- !app_assoc. reflexivity. Qed.

(** writing after [done] in a vector of [num] elements *)
Lemma mem_write_done {T} (k : T) done x num : length done <= num ->
  mem_write (done ++ repeat k (num - length done)) (length done) x
  = if length done + length x <=? num
    then Ok ((done ++ x) ++ repeat k (num - length (done ++ x))) else UB.
Proof.
  intros L. unfold mem_write. rewrite app_length, repeat_length.
  replace (length done + (num - length done)) with num by lia.
  destruct (Nat.leb_spec (length done + length x) num) as [H|H]; [|reflexivity].
  f_equal. rewrite firstn_app, firstn_all, Nat.sub_diag. cbn [firstn]. rewrite app_nil_r, <- app_assoc.
  do 2 f_equal. rewrite skipn_app, skipn_all2 by lia. cbn [app].
  replace (length done + length x - length done) with (length x) by lia.
  rewrite app_length.
  replace (num - length done) with (length x + (num - (length done + length x))) by lia.
  rewrite repeat_app, skipn_app, repeat_length, Nat.sub_diag, skipn_all2 by (rewrite repeat_length; lia).
  reflexivity.
Qed.

Definition ext_state (num : nat) (s : loading) (names exts : list text) : Prop :=
  length names <= num /\ length exts <= num
  /\ l_names s = names ++ repeat [] (num - length names) /\ l_idx s = length names
  /\ l_exts s = exts ++ repeat [] (num - length exts) /\ l_extidx s = length exts.

Lemma entry_exts_ok num d e s cur names exts : ext_state num s names exts -> sticky s cur d ->
  let c := match p_ext e with Some x => Some x | None => cur end in
  (forall xs, ext_gives num d c xs -> length exts + length xs <= num ->
     exists s', entry_exts num d e s = Ok s' /\ ext_state num s' names (exts ++ xs) /\ sticky s' c d)
  /\ (forall s', entry_exts num d e s = Ok s' ->
     exists xs, ext_gives num d c xs /\ length exts + length xs <= num)
  /\ (forall xs, ext_gives num d c xs -> num < length exts + length xs -> entry_exts num d e s = UB).
Proof.
  intros (L1 & L2 & En & Ei & Ex & Ej) St c.
  (* the three values used *)
  assert (V : exists cl b ix,
    (match p_ext e with Some x => (x_client x, x_name x, x_indices x)
                      | None => (l_client s, l_extbase s, l_extind s) end) = (cl, b, ix)
    /\ (match c with None => or_else cl (txt "system") = txt "system" /\ or_else b (ext_type d) = ext_type d /\ ix = None
        | Some x => or_else cl (txt "system") = or_else (x_client x) (txt "system")
                    /\ or_else b (ext_type d) = or_else (x_name x) (ext_type d) /\ ix = x_indices x end)).
  { unfold c. destruct (p_ext e) as [x|].
    - exists (x_client x), (x_name x), (x_indices x). repeat split.
    - exists (l_client s), (l_extbase s), (l_extind s). split; [reflexivity|].
      unfold sticky in St. destruct cur as [x|].
      + destruct St as (A1 & A2 & A3). rewrite A1, A2, A3. repeat split.
      + destruct St as [(A1 & A2 & A3)|(A1 & A2 & A3)]; rewrite A1, A2, A3; repeat split. }
  destruct V as (cl & b & ix & V & Vc).
  (* the names written *)
  assert (G : forall xs, ext_gives num d c xs ->
    match ix with
    | Some t => l <- index_sequence t ;; Ok (map (numbered (or_else cl (txt "system") ++ txt ":" ++ or_else b (ext_type d))) l)
    | None => Ok (map (fun k => numbered (or_else cl (txt "system") ++ txt ":" ++ or_else b (ext_type d)) (Z.of_nat (k + 1))) (seq 0 num))
    end = Ok xs).
  { intros xs H. destruct H as [|c0 b0|c0 b0 t l Hl]; destruct Vc as (V1 & V2 & V3);
      cbn [x_client x_name x_indices] in *; rewrite V1, V2; subst ix.
    - f_equal. rewrite <- seq_shift, map_map. apply map_ext. intros k. rewrite numbered_assoc.
      do 4 f_equal. lia.
    - f_equal. rewrite <- seq_shift, map_map. apply map_ext. intros k. rewrite numbered_assoc.
      do 4 f_equal. lia.
    - rewrite Hl. cbn [bind]. f_equal. apply map_ext. intros k. apply numbered_assoc. }
  assert (G2 : forall xs, match ix with
    | Some t => l <- index_sequence t ;; Ok (map (numbered (or_else cl (txt "system") ++ txt ":" ++ or_else b (ext_type d))) l)
    | None => Ok (map (fun k => numbered (or_else cl (txt "system") ++ txt ":" ++ or_else b (ext_type d)) (Z.of_nat (k + 1))) (seq 0 num))
    end = Ok xs -> exists xs', ext_gives num d c xs' /\ length xs' = length xs).
  { intros xs H. destruct c as [[c0 b0 i0]|]; destruct Vc as (V1 & V2 & V3); cbn [x_indices] in V3; subst ix.
    - destruct i0 as [t|].
      + destruct (index_sequence t) as [l| |] eqn:E; cbn [bind] in H; try discriminate.
        injection H as H. subst xs. eexists. split; [apply Ext_indexed; exact E|]. rewrite !map_length. reflexivity.
      + injection H as H. subst xs. eexists. split; [apply Ext_numbered|].
        rewrite !map_length, !seq_length. reflexivity.
    - injection H as H. subst xs. eexists. split; [apply Ext_default|].
      rewrite !map_length, !seq_length. reflexivity. }
  unfold entry_exts. rewrite V.
  change (match cl with Some c1 => c1 | None => txt "system" end) with (or_else cl (txt "system")).
  change (match b with Some c1 => c1 | None => ext_type d end) with (or_else b (ext_type d)).
  cbv zeta. split; [|split].
  - intros xs Hx Hl. rewrite (G xs Hx). cbn [bind]. rewrite Ex, Ej, mem_write_done by exact L2.
    apply Nat.leb_le in Hl as Hl'. rewrite Hl'. cbn [bind]. eexists. split; [reflexivity|]. split.
    + unfold ext_state. cbn [l_names l_exts l_idx l_extidx]. rewrite app_length. repeat split; try assumption; lia.
    + unfold sticky. cbn [l_client l_extbase l_extind]. destruct c as [x|]; destruct Vc as (V1 & V2 & V3).
      * rewrite V1, V2, V3. repeat split.
      * right. rewrite V1, V2, V3. repeat split.
  - intros s' H. remember (match ix with Some _ => _ | None => _ end) as r eqn:Er in H.
    symmetry in Er. destruct r as [xs| |]; cbn [bind] in H; try discriminate.
    rewrite Ex, Ej, mem_write_done in H by exact L2.
    destruct (Nat.leb_spec (length exts + length xs) num) as [Hl|Hl]; cbn [bind] in H; [|discriminate].
    destruct (G2 xs Er) as (xs' & H1 & H2). exists xs'. split; [exact H1|lia].
  - intros xs Hx Hl. rewrite (G xs Hx). cbn [bind]. rewrite Ex, Ej, mem_write_done by exact L2.
    destruct (Nat.leb_spec (length exts + length xs) num) as [K|K]; [lia|]. reflexivity.
Qed.

Lemma load_entries_auto num d : forall l s cur names exts, ext_state num s names exts -> sticky s cur d ->
  (forall nss xss, Forall2 (entry_gives num d) l nss -> Forall2 (ext_gives num d) (inherited cur l) xss ->
     length (names ++ concat nss) <= num -> length (exts ++ concat xss) <= num ->
     exists s', load_entries num d true s l = Ok s' /\ ext_state num s' (names ++ concat nss) (exts ++ concat xss))
  /\ (forall s', load_entries num d true s l = Ok s' ->
     exists nss xss, Forall2 (entry_gives num d) l nss /\ Forall2 (ext_gives num d) (inherited cur l) xss
       /\ length (names ++ concat nss) <= num /\ length (exts ++ concat xss) <= num).
Proof.
  induction l as [|e r IH]; intros s cur names exts Hs St.
  - split.
    + intros nss xss H1 H2 L1 L2. inversion H1; subst. inversion H2; subst. exists s. split; [reflexivity|].
      cbn [concat] in *. rewrite !app_nil_r. exact Hs.
    + intros s' H. exists [], []. cbn [concat]. rewrite !app_nil_r. destruct Hs as (A1 & A2 & _).
      repeat split; try constructor; assumption.
  - cbn [load_entries inherited]. cbv zeta. set (c := match p_ext e with Some x => Some x | None => cur end).
    assert (S1 : forall ns, length names + length ns <= num ->
      ext_state num {| l_names := (names ++ ns) ++ repeat [] (num - length (names ++ ns)); l_exts := l_exts s;
                       l_idx := l_idx s + length ns; l_extidx := l_extidx s;
                       l_client := l_client s; l_extbase := l_extbase s; l_extind := l_extind s |} (names ++ ns) exts).
    { intros ns L. destruct Hs as (A1 & A2 & A3 & A4 & A5 & A6). unfold ext_state. cbn [l_names l_exts l_idx l_extidx].
      rewrite app_length. repeat split; try assumption; lia. }
    assert (W : forall ns, mem_write (l_names s) (l_idx s) ns
       = if length names + length ns <=? num
         then Ok ((names ++ ns) ++ repeat [] (num - length (names ++ ns))) else UB).
    { intros ns. destruct Hs as (A1 & A2 & A3 & A4 & A5 & A6). rewrite A3, A4. apply mem_write_done. exact A1. }
    split.
    + intros nss xss H1 H2 L1 L2. inversion H1 as [|? ns ? nss' G1 G2]; subst.
      inversion H2 as [|? xs ? xss' G3 G4]; subst. cbn [concat] in *. rewrite !app_length in L1, L2.
      unfold load_entry. rewrite (proj2 (entry_names_ok num d e ns) G1). cbn [bind]. rewrite W.
      destruct (Nat.leb_spec (length names + length ns) num) as [K|K]; [|lia]. cbn [bind].
      destruct (entry_exts_ok num d e _ cur (names ++ ns) exts (S1 ns K) St) as (E1 & _ & _).
      destruct (E1 xs G3 ltac:(lia)) as (s' & E & Hs' & St'). rewrite E. cbn [bind].
      destruct (IH s' c (names ++ ns) (exts ++ xs) Hs' St') as (I1 & _).
      destruct (I1 nss' xss' G2 G4) as (s'' & R1 & R2); [rewrite !app_length; lia|rewrite !app_length; lia|].
      exists s''. split; [exact R1|]. rewrite !app_assoc. exact R2.
    + intros s'' H. unfold load_entry in H. destruct (entry_names num d e) as [ns| |] eqn:G1; cbn [bind] in H; try discriminate.
      rewrite W in H. destruct (Nat.leb_spec (length names + length ns) num) as [K|K]; cbn [bind] in H; [|discriminate].
      destruct (entry_exts_ok num d e _ cur (names ++ ns) exts (S1 ns K) St) as (E1 & E2 & _).
      destruct (entry_exts num d e _) as [s'| |] eqn:E in H; cbn [bind] in H; try discriminate.
      destruct (E2 s' E) as (xs & G3 & K2). destruct (E1 xs G3 K2) as (s2 & E' & Hs' & St').
      rewrite E in E'. injection E' as E'. subst s2.
      destruct (IH s' c (names ++ ns) (exts ++ xs) Hs' St') as (_ & I2).
      destruct (I2 s'' H) as (nss & xss & R1 & R2 & R3 & R4).
      exists (ns :: nss), (xs :: xss). cbn [concat]. rewrite !app_assoc. repeat split; try assumption.
      * constructor; [apply entry_names_ok; exact G1|exact R1].
      * constructor; [exact G3|exact R2].
Qed.

Lemma load_entries_manual num d : forall l s (names : list text), length names <= num ->
  l_names s = names ++ repeat [] (num - length names) -> l_idx s = length names ->
  (forall nss, Forall2 (entry_gives num d) l nss -> length (names ++ concat nss) <= num ->
     exists s', load_entries num d false s l = Ok s' /\ l_idx s' = length (names ++ concat nss)
       /\ l_names s' = (names ++ concat nss) ++ repeat [] (num - length (names ++ concat nss)) /\ l_exts s' = l_exts s)
  /\ (forall s', load_entries num d false s l = Ok s' ->
     exists nss, Forall2 (entry_gives num d) l nss /\ length (names ++ concat nss) <= num)
  /\ (forall nss, Forall2 (entry_gives num d) l nss -> num < length (names ++ concat nss) ->
     load_entries num d false s l = UB).
Proof.
  induction l as [|e r IH]; intros s names A1 A3 A4.
  - split; [|split].
    + intros nss H1 L1. inversion H1; subst. exists s. cbn [concat] in *. rewrite !app_nil_r.
      repeat split; assumption.
    + intros s' H. exists []. cbn [concat]. rewrite app_nil_r. split; [constructor|exact A1].
    + intros nss H1 L1. inversion H1; subst. cbn [concat] in L1. rewrite app_nil_r in L1. lia.
  - cbn [load_entries].
    assert (W : forall ns, mem_write (l_names s) (l_idx s) ns
       = if length names + length ns <=? num
         then Ok ((names ++ ns) ++ repeat [] (num - length (names ++ ns))) else UB).
    { intros ns. rewrite A3, A4. apply mem_write_done. exact A1. }
    unfold load_entry. split; [|split].
    + intros nss H1 L1. inversion H1 as [|? ns ? nss' G1 G2]; subst. cbn [concat] in *. rewrite !app_length in L1.
      rewrite (proj2 (entry_names_ok num d e ns) G1). cbn [bind]. rewrite W.
      destruct (Nat.leb_spec (length names + length ns) num) as [K|K]; [|lia]. cbn [bind].
      match goal with |- exists s', load_entries _ _ _ ?s1 _ = _ /\ _ =>
        destruct (IH s1 (names ++ ns)) as (I1 & _ & _) end.
      { rewrite app_length. lia. } { reflexivity. } { cbn [l_idx]. rewrite app_length, A4. reflexivity. }
      destruct (I1 nss' G2) as (s' & R1 & R2 & R3 & R4); [rewrite !app_length; lia|].
      exists s'. rewrite !app_assoc. repeat split; assumption.
    + intros s' H. destruct (entry_names num d e) as [ns| |] eqn:G1; cbn [bind] in H; try discriminate.
      rewrite W in H. destruct (Nat.leb_spec (length names + length ns) num) as [K|K]; cbn [bind] in H; [|discriminate].
      match type of H with load_entries _ _ _ ?s1 _ = _ =>
        destruct (IH s1 (names ++ ns)) as (_ & I2 & _) end.
      { rewrite app_length. lia. } { reflexivity. } { cbn [l_idx]. rewrite app_length, A4. reflexivity. }
      destruct (I2 s' H) as (nss & R1 & R2). exists (ns :: nss). cbn [concat]. rewrite app_assoc. split; [|exact R2].
      constructor; [apply entry_names_ok; exact G1|exact R1].
    + intros nss H1 L1. inversion H1 as [|? ns ? nss' G1 G2]; subst. cbn [concat] in *.
      rewrite (proj2 (entry_names_ok num d e ns) G1). cbn [bind]. rewrite W.
      destruct (Nat.leb_spec (length names + length ns) num) as [K|K]; [|reflexivity]. cbn [bind].
      match goal with |- load_entries _ _ _ ?s1 _ = _ =>
        destruct (IH s1 (names ++ ns)) as (_ & _ & I3) end.
      { rewrite app_length. lia. } { reflexivity. } { cbn [l_idx]. rewrite app_length, A4. reflexivity. }
      apply (I3 nss' G2). rewrite <- app_assoc. exact L1.
Qed.

(** *** The configuration as a whole *)
Definition entries_of (tree : option dirconf) : list portconf :=
  match tree with
  | Some {| d_ports := Some l |} => l
  | _ => [empty_entry]
  end.
Definition auto_of (auto : bool) (tree : option dirconf) : bool :=
  match tree with Some {| d_auto := Some b |} => b | _ => auto end.

Lemma load_ports_unfold num d auto tree : load_ports num d auto tree =
  (s <- load_entries num d (auto_of auto tree)
         {| l_names := repeat [] num; l_exts := repeat [] num; l_idx := 0; l_extidx := 0;
            l_client := None; l_extbase := None; l_extind := None |} (entries_of tree) ;;
  if negb (l_idx s =? num) then Throw InvalidArgument
  else if auto_of auto tree && negb (l_extidx s =? num) then Throw InvalidArgument
  else Ok (l_names s, l_exts s)).
Proof. destruct tree as [[a l]|]; [|reflexivity]. destruct a, l; reflexivity. Qed.

Theorem load_ports_ok num d auto tree names exts :
  load_ports num d auto tree = Ok (names, exts)
  <-> (exists nss, Forall2 (entry_gives num d) (entries_of tree) nss /\ names = concat nss) /\ length names = num
      /\ (if auto_of auto tree
          then (exists xss, Forall2 (ext_gives num d) (inherited None (entries_of tree)) xss /\ exts = concat xss)
               /\ length exts = num
          else exts = repeat [] num).
Proof.
  rewrite load_ports_unfold. set (s0 := {| l_names := _ |}).
  assert (H0 : ext_state num s0 [] []).
  { unfold ext_state, s0. cbn. rewrite Nat.sub_0_r. repeat split; lia. }
  assert (St : sticky s0 None d) by (left; repeat split).
  destruct (auto_of auto tree).
  - destruct (load_entries_auto num d (entries_of tree) s0 None [] [] H0 St) as (I1 & I2). cbn [app] in *. split.
    + intros H. destruct (load_entries num d true s0 (entries_of tree)) as [s| |] eqn:E; cbn [bind] in H; try discriminate.
      destruct (I2 s eq_refl) as (nss & xss & R1 & R2 & R3 & R4).
      destruct (I1 nss xss R1 R2 R3 R4) as (s' & E' & Hs). injection E' as E'. subst s'.
      destruct Hs as (B1 & B2 & B3 & B4 & B5 & B6). rewrite B3, B4, B5, B6 in H. cbn [andb] in H.
      destruct (Nat.eqb_spec (length (concat nss)) num) as [K1|K1]; cbn [negb] in H; [|discriminate].
      destruct (Nat.eqb_spec (length (concat xss)) num) as [K2|K2]; cbn [negb] in H; [|discriminate].
      rewrite K1, K2, Nat.sub_diag in H. cbn [repeat] in H. rewrite !app_nil_r in H. injection H as Hn Hx. subst names exts.
      split; [exists nss; split; [exact R1|reflexivity]|]. split; [exact K1|].
      split; [exists xss; split; [exact R2|reflexivity]|exact K2].
    + intros ((nss & R1 & En) & K1 & (xss & R2 & Ex) & K2). subst names exts.
      destruct (I1 nss xss R1 R2) as (s & E & Hs); [lia|lia|]. rewrite E. cbn [bind].
      destruct Hs as (B1 & B2 & B3 & B4 & B5 & B6). rewrite B3, B4, B5, B6, K1, K2, Nat.eqb_refl, Nat.sub_diag. cbn.
      rewrite !app_nil_r. reflexivity.
  - destruct H0 as (_ & _ & A3 & A4 & A5 & A6).
    destruct (load_entries_manual num d (entries_of tree) s0 [] (Nat.le_0_l _) A3 A4) as (I1 & I2 & _). cbn [app] in *. split.
    + intros H. destruct (load_entries num d false s0 (entries_of tree)) as [s| |] eqn:E; cbn [bind] in H; try discriminate.
      destruct (I2 s eq_refl) as (nss & R1 & R3).
      destruct (I1 nss R1 R3) as (s' & E' & B4 & B3 & B5). injection E' as E'. subst s'.
      rewrite B3, B4, B5 in H. cbn [andb] in H.
      destruct (Nat.eqb_spec (length (concat nss)) num) as [K1|K1]; cbn [negb] in H; [|discriminate].
      rewrite K1, Nat.sub_diag in H. cbn [repeat] in H. rewrite !app_nil_r in H. injection H as Hn Hx. subst names exts.
      split; [exists nss; split; [exact R1|reflexivity]|]. split; [exact K1|]. reflexivity.
    + intros ((nss & R1 & En) & K1 & Ex). subst names exts.
      destruct (I1 nss R1) as (s & E & B4 & B3 & B5); [lia|]. rewrite E. cbn [bind].
      rewrite B3, B4, B5, K1, Nat.eqb_refl, Nat.sub_diag. cbn. rewrite !app_nil_r. reflexivity.
Qed.

(** too many names are written past the end *)
Theorem load_ports_overflow num d auto tree nss : auto_of auto tree = false ->
  Forall2 (entry_gives num d) (entries_of tree) nss -> num < length (concat nss) ->
  load_ports num d auto tree = UB.
Proof.
  intros Ha R L. rewrite load_ports_unfold, Ha. set (s0 := {| l_names := _ |}).
  destruct (load_entries_manual num d (entries_of tree) s0 []) as (_ & _ & I3).
  { cbn. lia. } { cbn. rewrite Nat.sub_0_r. reflexivity. } { reflexivity. }
  rewrite (I3 nss R L). reflexivity.
Qed.

(** *** Names *)
Lemma print_size_inj a b : (0 <= a)%Z -> (0 <= b)%Z -> print_size a = print_size b -> a = b.
Proof.
  intros Ha Hb E. destruct (print_size_ok a Ha) as (_ & _ & Va). destruct (print_size_ok b Hb) as (_ & _ & Vb).
  rewrite E in Va. congruence.
Qed.
Lemma numbered_nodup base num : NoDup (map (fun n => base ++ print_size (Z.of_nat n)) (seq 0 num)).
Proof.
  assert (G : forall l, NoDup l -> NoDup (map (fun n => base ++ print_size (Z.of_nat n)) l)).
  { induction l as [|x r IH]; intros H; cbn [map]; constructor; inversion H; subst.
    - intros K. apply in_map_iff in K. destruct K as (y & E & I). apply app_inv_head in E.
      apply print_size_inj in E; [|lia|lia]. apply Nat2Z.inj in E. subst y. contradiction.
    - apply IH. assumption. }
  apply G, seq_NoDup.
Qed.
Lemma has_duplicate_spec l : has_duplicate l = false <-> NoDup l.
Proof.
  induction l as [|x r IH]; cbn [has_duplicate].
  - split; [constructor|reflexivity].
  - rewrite orb_false_iff. split.
    + intros (H1 & H2). constructor; [|apply IH; exact H2]. intros I.
      assert (E : existsb (text_eqb x) r = true) by (apply existsb_exists; exists x; split; [exact I|apply text_eqb_refl]).
      rewrite H1 in E. discriminate E.
    + intros H. inversion H as [|? ? N Nr]; subst. split; [|apply IH; exact Nr].
      destruct (existsb (text_eqb x) r) eqn:E; [|reflexivity]. apply existsb_exists in E.
      destruct E as (y & I & Ey). destruct (text_eqb_spec x y) as [Exy|]; [subst y; contradiction|discriminate].
Qed.

(** ** The server *)
Fixpoint mkports (i : nat) (l : list (direction * text)) : list port :=
  match l with
  | [] => []
  | (d, n) :: r => {| o_id := i; o_dir := d; o_name := n |} :: mkports (S i) r
  end.
Lemma mkports_app l1 : forall i l2, mkports i (l1 ++ l2) = mkports i l1 ++ mkports (i + length l1) l2.
Proof.
  induction l1 as [|[d n] r IH]; intros i l2; cbn [mkports app length].
  - rewrite Nat.add_0_r. reflexivity.
  - rewrite IH. cbn [app]. do 3 f_equal. lia.
Qed.
Lemma mkports_length l : forall i, length (mkports i l) = length l.
Proof. induction l as [|[d n] r IH]; intros i; cbn; [reflexivity|rewrite IH; reflexivity]. Qed.
Lemma mkports_in l : forall i p, In p (mkports i l) -> i <= o_id p /\ In (o_dir p, o_name p) l.
Proof.
  induction l as [|[d n] r IH]; intros i p H; cbn in H; [contradiction|]. destruct H as [E|H].
  - subst p. cbn. split; [lia|left; reflexivity].
  - destruct (IH (S i) p H). split; [lia|right; assumption].
Qed.
Lemma mkports_in_inv l : forall i d n, In (d, n) l -> exists p, In p (mkports i l) /\ o_dir p = d /\ o_name p = n.
Proof.
  induction l as [|[d' n'] r IH]; intros i d n H; cbn in H; [contradiction|]. cbn [mkports]. destruct H as [E|H].
  - injection E as E1 E2. subst. eexists. split; [left; reflexivity|]. split; reflexivity.
  - destruct (IH (S i) d n H) as (p & I & E). exists p. split; [right; exact I|exact E].
Qed.
Lemma mkports_find l : forall i j d n, nth_error l j = Some (d, n) ->
  find (fun p => o_id p =? i + j) (mkports i l) = Some {| o_id := i + j; o_dir := d; o_name := n |}.
Proof.
  induction l as [|[d' n'] r IH]; intros i j d n H; [destruct j; discriminate|]. cbn [mkports find o_id].
  destruct j as [|j]; cbn [nth_error] in H.
  - injection H as E1 E2. subst. rewrite Nat.add_0_r, Nat.eqb_refl. reflexivity.
  - destruct (Nat.eqb_spec i (i + S j)) as [E|_]; [lia|].
    replace (i + S j) with (S i + j) by lia. apply IH. exact H.
Qed.

Lemma NoDup_app_l {T} (a b : list T) : NoDup (a ++ b) -> NoDup a /\ NoDup b.
Proof.
  induction a as [|x r IH]; intros H; [split; [constructor|exact H]|]. inversion H as [|? ? N1 N2]; subst.
  destruct (IH N2) as (I1 & I2). split; [|exact I2]. constructor; [|exact I1]. intros I. apply N1, in_or_app. left. exact I.
Qed.

Section Life.
  Context {A F W : Type}.
  Variable feq : F -> F -> bool.
  Variable call : F -> W -> list (list A) -> W * res (list (list A)).
  Variable other_output other_input : text -> bool.
  Variable accepts : nat -> text -> bool.
  Variable k : jack.
  (** the ports of other clients have other names *)
  Hypothesis others : forall n, other_output (full_name k n) = false /\ other_input (full_name k n) = false.

  Notation full := (full_name k).
  Notation step := (jack_step (A := A) (W := W) feq call other_output other_input accepts k).

  (** *** Registration *)
  (** the ports of the configuration in the order of their registration *)
  Definition wanted : list (direction * text) :=
    map (fun n => (Capture, short_name n)) (k_capture k) ++ map (fun n => (Playback, short_name n)) (k_playback k).
  Definition startable : Prop :=
    NoDup (map snd wanted) /\ forall i n, nth_error (map snd wanted) i = Some n -> accepts i n = true.

  Fixpoint taken (have new : list (direction * text)) : bool :=
    match new with
    | [] => true
    | p :: r => negb (existsb (fun q => text_eqb (snd q) (snd p)) have) && accepts (length have) (snd p)
                && taken (have ++ [p]) r
    end.
  Lemma existsb_mkports n l : forall i,
    existsb (fun p => text_eqb (o_name p) n) (mkports i l) = existsb (fun q => text_eqb (snd q) n) l.
  Proof. induction l as [|[d m] r IH]; intros i; cbn; [reflexivity|]. rewrite IH. reflexivity. Qed.

  Lemma taken_ok new : forall have, NoDup (map snd have) ->
    taken have new = true <->
    (NoDup (map snd (have ++ new))
     /\ forall i n, length have <= i -> nth_error (map snd (have ++ new)) i = Some n -> accepts i n = true).
  Proof.
    induction new as [|p r IH]; intros have N; cbn [taken].
    - rewrite app_nil_r. split; [intros _|reflexivity]. split; [exact N|]. intros i n L H.
      apply nth_error_Some_lt in H || (assert (i < length (map snd have)) by (apply nth_error_Some; congruence)).
      rewrite map_length in *. lia.
    - rewrite !andb_true_iff, negb_true_iff.
      assert (Ex : existsb (fun q => text_eqb (snd q) (snd p)) have = false <-> ~ In (snd p) (map snd have)).
      { split.
        - intros E I. apply in_map_iff in I. destruct I as (q & Eq & I).
          assert (X : existsb (fun q => text_eqb (snd q) (snd p)) have = true).
          { apply existsb_exists. exists q. split; [exact I|]. rewrite Eq. apply text_eqb_refl. }
          rewrite E in X. discriminate X.
        - intros I. destruct (existsb _ have) eqn:E; [|reflexivity]. exfalso. apply I.
          apply existsb_exists in E. destruct E as (q & Iq & Eq).
          destruct (text_eqb_spec (snd q) (snd p)) as [E|]; [|discriminate]. rewrite <- E. apply in_map. exact Iq. }
      rewrite Ex.
      assert (Eapp : have ++ p :: r = (have ++ [p]) ++ r) by (rewrite <- app_assoc; reflexivity).
      split.
      + intros ((H1 & H2) & H3).
        assert (N' : NoDup (map snd (have ++ [p]))).
        { rewrite map_app. cbn [map]. assert (Q := Add_app (snd p) (map snd have) []). rewrite app_nil_r in Q.
          apply (NoDup_Add Q). split; assumption. }
        apply (IH (have ++ [p]) N') in H3. destruct H3 as (H3 & H4). rewrite Eapp. split; [exact H3|].
        intros i n L Hi. destruct (Nat.eq_dec i (length have)) as [E|E].
        * subst i. rewrite <- Eapp, map_app, nth_error_app2, map_length, Nat.sub_diag in Hi by (rewrite map_length; lia).
          cbn in Hi. injection Hi as Hi. subst n. exact H2.
        * apply H4; [rewrite app_length; cbn; lia|exact Hi].
      + rewrite Eapp. intros (H1 & H2).
        assert (N' : NoDup (map snd (have ++ [p]))).
        { rewrite map_app in H1. exact (proj1 (NoDup_app_l _ _ H1)). }
        split; [split|].
        * rewrite map_app in N'. cbn [map] in N'. apply NoDup_remove in N' as (_ & N'). rewrite app_nil_r in N'. exact N'.
        * apply (H2 (length have) (snd p) (le_n _)).
          rewrite <- Eapp, map_app, nth_error_app2, map_length, Nat.sub_diag by (rewrite map_length; lia). reflexivity.
        * apply IH; [exact N'|]. split; [exact H1|]. intros i n L Hi. rewrite app_length in L.
          apply H2; [lia|exact Hi].
  Qed.
  Lemma startable_taken : startable <-> taken [] wanted = true.
  Proof.
    assert (N0 : NoDup (map snd (@nil (direction * text)))) by constructor.
    rewrite (taken_ok wanted [] N0). cbn [app length]. unfold startable. split.
    - intros (H1 & H2). split; [exact H1|]. intros i n _. apply H2.
    - intros (H1 & H2). split; [exact H1|]. intros i n. apply H2. lia.
  Qed.
  Lemma taken_app a : forall have b, taken have (a ++ b) = taken have a && taken (have ++ a) b.
  Proof.
    induction a as [|p r IH]; intros have b; cbn [taken app].
    - rewrite app_nil_r. reflexivity.
    - rewrite IH, <- !andb_assoc. do 3 f_equal. rewrite <- app_assoc. reflexivity.
  Qed.

  Lemma register_loop_ok d names : forall v i have, v_ports v = mkports i have -> v_next v = i + length have ->
    exists m, m <= length names
      /\ (m = length names <-> taken have (map (fun n => (d, short_name n)) names) = true)
      /\ register_loop accepts d names (repeat None (length names)) v
         = (m =? length names,
            map Some (seq (v_next v) m) ++ repeat None (length names - m),
            {| v_next := v_next v + m;
               v_ports := mkports i (have ++ map (fun n => (d, short_name n)) (firstn m names));
               v_links := v_links v; v_active := v_active v |}).
  Proof.
    induction names as [|n r IH]; intros v i have Ep En.
    - exists 0. split; [cbn; lia|]. split; [split; reflexivity|]. cbn. rewrite app_nil_r, <- Ep, Nat.add_0_r.
      destruct v; reflexivity.
    - cbn [length repeat register_loop map taken]. unfold server_register.
      rewrite Ep, mkports_length, existsb_mkports. cbn [snd].
      destruct (existsb (fun q => text_eqb (snd q) (short_name n)) have) eqn:E1; cbn [orb negb andb].
      + exists 0. split; [lia|]. split; [split; discriminate|]. cbn. rewrite app_nil_r, <- Ep, Nat.add_0_r.
        destruct v; reflexivity.
      + destruct (accepts (length have) (short_name n)) eqn:E2; cbn [negb andb].
        * match goal with |- context [register_loop _ _ _ _ ?v1] =>
            destruct (IH v1 i (have ++ [(d, short_name n)])) as (m & L & T & R) end.
          { cbn. rewrite mkports_app. cbn. rewrite En. reflexivity. }
          { cbn. rewrite app_length, En. cbn. lia. }
          exists (S m). split; [lia|]. split.
          { rewrite <- T. split; intros; lia. }
          rewrite R. cbn [v_next v_links v_active firstn map seq]. rewrite <- app_assoc. cbn [app].
          replace (v_next v + S m) with (S (v_next v) + m) by lia. reflexivity.
        * exists 0. split; [lia|]. split; [split; discriminate|]. cbn. rewrite app_nil_r, <- Ep, Nat.add_0_r.
          destruct v; reflexivity.
  Qed.

  (** *** Links *)
  Definition ends (p : port) (c : text * text) : Prop :=
    (match o_dir p with Capture => snd c | Playback => fst c end) = full (o_name p).
  (** every link ends at a port of this client *)
  Definition tied (v : server) : Prop := forall c, In c (v_links v) -> exists p, In p (v_ports v) /\ ends p c.
  Lemma tied_no_ports v : tied v -> v_ports v = [] -> v_links v = [].
  Proof.
    intros H E. destruct (v_links v) as [|c r] eqn:El; [reflexivity|]. destruct (H c) as (p & I & _).
    - rewrite El. left. reflexivity.
    - rewrite E in I. contradiction.
  Qed.
  Lemma unlinked_in p l c : In c (unlinked k p l) <-> In c l /\ ~ ends p c.
  Proof.
    unfold unlinked, ends. rewrite filter_In, negb_true_iff.
    destruct (text_eqb_spec (match o_dir p with Capture => snd c | Playback => fst c end) (full (o_name p))) as [E|E].
    - split; intros (H1 & H2); [discriminate|contradiction].
    - split; intros (H1 & H2); (split; [exact H1|]); [exact E|reflexivity].
  Qed.

  Lemma disconnect_keeps id v : tied v ->
    v_next (server_disconnect k id v) = v_next v /\ v_ports (server_disconnect k id v) = v_ports v
    /\ v_active (server_disconnect k id v) = v_active v /\ tied (server_disconnect k id v).
  Proof.
    intros T. unfold server_disconnect. destruct (find_port id v) as [p|]; [|repeat split; exact T]. cbn.
    repeat split. intros c H. cbn in H. apply unlinked_in in H as (H & _). exact (T c H).
  Qed.
  Lemma disconnect_loop_keeps l : forall v, tied v ->
    v_next (disconnect_loop k l v) = v_next v /\ v_ports (disconnect_loop k l v) = v_ports v
    /\ v_active (disconnect_loop k l v) = v_active v /\ tied (disconnect_loop k l v).
  Proof.
    unfold disconnect_loop. induction l as [|o r IH]; intros v T; cbn [fold_left]; [repeat split; exact T|].
    destruct o as [id|]; [|apply IH; exact T].
    destruct (disconnect_keeps id v T) as (E1 & E2 & E3 & T'). destruct (IH _ T') as (F1 & F2 & F3 & F4).
    rewrite F1, F2, F3. repeat split; assumption.
  Qed.

  Lemma filter_mkports i d n r : filter (fun q => negb (o_id q =? i)) (mkports i ((d, n) :: r)) = mkports (S i) r.
  Proof.
    cbn [mkports filter o_id]. rewrite Nat.eqb_refl. cbn [negb].
    assert (G : forall l, (forall p, In p l -> S i <= o_id p) -> filter (fun q => negb (o_id q =? i)) l = l).
    { induction l as [|p l IH]; intros H; [reflexivity|]. cbn [filter].
      destruct (Nat.eqb_spec (o_id p) i) as [E|E]; cbn [negb].
      - specialize (H p (or_introl eq_refl)). lia.
      - rewrite IH; [reflexivity|]. intros q I. apply H. right. exact I. }
    apply G. intros p I. exact (proj1 (mkports_in r (S i) p I)).
  Qed.
  Lemma unregister_first i d n r v : tied v -> v_ports v = mkports i ((d, n) :: r) ->
    let v' := server_unregister k i v in
    v_next v' = v_next v /\ v_ports v' = mkports (S i) r /\ v_active v' = v_active v /\ tied v'.
  Proof.
    intros T Ep. cbv zeta. unfold server_unregister, find_port. rewrite Ep.
    assert (Ef := mkports_find ((d, n) :: r) i 0 d n eq_refl). rewrite Nat.add_0_r in Ef. rewrite Ef. cbn [v_next v_ports v_active].
    rewrite filter_mkports. repeat split. intros c H. cbn [v_links v_ports] in *. apply unlinked_in in H as (H & N).
    destruct (T c H) as (p & I & E). exists p. split; [|exact E]. rewrite Ep in I. cbn [mkports In] in I.
    destruct I as [I|I]; [subst p; contradiction|exact I].
  Qed.
  Lemma unregister_loop_ok m : forall i have v z, tied v -> v_ports v = mkports i have -> m <= length have ->
    let v' := unregister_loop k (map Some (seq i m) ++ repeat None z) v in
    v_next v' = v_next v /\ v_ports v' = mkports (i + m) (skipn m have) /\ v_active v' = v_active v /\ tied v'.
  Proof.
    induction m as [|m IH]; intros i have v z T Ep L; cbv zeta; unfold unregister_loop.
    - cbn [seq map app].
      assert (G : forall z v, fold_left (fun v o => match o with Some id => server_unregister k id v | None => v end) (repeat None z) v = v).
      { induction z0; intros v0; cbn; [reflexivity|apply IHz0]. }
      rewrite G, Nat.add_0_r. cbn [skipn]. repeat split; assumption.
    - destruct have as [|[d n] r]; cbn [length] in L; [lia|]. cbn [seq map app fold_left].
      destruct (unregister_first i d n r v T Ep) as (E1 & E2 & E3 & T').
      destruct (IH (S i) r (server_unregister k i v) z T' E2 ltac:(lia)) as (F1 & F2 & F3 & F4).
      unfold unregister_loop in F1, F2, F3, F4. rewrite F1, F2, F3. cbn [skipn].
      replace (i + S m) with (S i + m) by lia. repeat split; assumption.
  Qed.

  Lemma connect_keeps src dst v :
    (exists n, src = full n) \/ (exists n, dst = full n) -> tied v ->
    v_next (server_connect other_output other_input k src dst v) = v_next v
    /\ v_ports (server_connect other_output other_input k src dst v) = v_ports v
    /\ v_active (server_connect other_output other_input k src dst v) = v_active v
    /\ tied (server_connect other_output other_input k src dst v).
  Proof.
    intros Ow T. unfold server_connect. destruct (_ && v_active v) eqn:E; [|repeat split; exact T]. cbn. repeat split.
    apply andb_true_iff in E as (E & _). apply andb_true_iff in E as (E & _). apply andb_true_iff in E as (E1 & E2).
    intros c H. cbn in H |- *. apply in_app_or in H. destruct H as [H|[H|[]]]; [exact (T c H)|]. subst c.
    assert (O : own k Playback src v = true \/ own k Capture dst v = true).
    { destruct Ow as [(n & ->)|(n & ->)].
      - rewrite (proj1 (others n)), orb_false_r in E1. left. exact E1.
      - rewrite (proj2 (others n)), orb_false_r in E2. right. exact E2. }
    unfold own in O. destruct O as [O|O]; apply existsb_exists in O; destruct O as (p & I & Ep);
      apply andb_true_iff in Ep as (D & Ep); exists p; (split; [exact I|]); unfold ends;
      destruct (o_dir p); try discriminate D; cbn.
    - destruct (text_eqb_spec (full (o_name p)) src) as [Q|Q]; [symmetry; exact Q|discriminate Ep].
    - destruct (text_eqb_spec (full (o_name p)) dst) as [Q|Q]; [symmetry; exact Q|discriminate Ep].
  Qed.

  (** *** Invariant *)
  (** [i]: identity of the first port *)
  Definition ready (s : state F) : Prop :=
    tied (t_server s)
    /\ if t_init s
       then v_active (t_server s) = true /\ exists i, v_ports (t_server s) = mkports i wanted
            /\ v_next (t_server s) = i + length wanted
            /\ t_capture s = map Some (seq i (length (k_capture k)))
            /\ t_playback s = map Some (seq (i + length (k_capture k)) (length (k_playback k)))
       else v_ports (t_server s) = []
            /\ t_capture s = repeat None (length (k_capture k))
            /\ t_playback s = repeat None (length (k_playback k)).

  Lemma wanted_length : length wanted = length (k_capture k) + length (k_playback k).
  Proof. unfold wanted. rewrite app_length, !map_length. reflexivity. Qed.
  Lemma map_none {T} (l : list T) : map (fun _ => @None nat) l = repeat None (length l).
  Proof. induction l; cbn; congruence. Qed.

  (** unregisterPorts after [m] ports have been registered *)
  Lemma unregister_ports_ok (s : state F) i have m1 m2 : tied (t_server s) -> v_ports (t_server s) = mkports i have ->
    length have = m1 + m2 -> m1 <= length (k_capture k) -> m2 <= length (k_playback k) ->
    t_capture s = map Some (seq i m1) ++ repeat None (length (k_capture k) - m1) ->
    t_playback s = map Some (seq (i + m1) m2) ++ repeat None (length (k_playback k) - m2) ->
    let s' := unregister_ports k s in
    tied (t_server s') /\ v_ports (t_server s') = [] /\ v_active (t_server s') = v_active (t_server s)
    /\ v_next (t_server s') = v_next (t_server s)
    /\ t_capture s' = repeat None (length (k_capture k)) /\ t_playback s' = repeat None (length (k_playback k))
    /\ t_init s' = t_init s /\ t_callback s' = t_callback s.
  Proof.
    intros T Ep Lh L1 L2 Ec Epl. cbv zeta. unfold unregister_ports. cbn [t_server t_capture t_playback t_init t_callback].
    rewrite !map_none, Ec, Epl.
    destruct (unregister_loop_ok m1 i have (t_server s) (length (k_capture k) - m1) T Ep ltac:(lia)) as (E1 & E2 & E3 & T1).
    assert (Ls : length (skipn m1 have) = m2) by (rewrite skipn_length; lia).
    destruct (unregister_loop_ok m2 (i + m1) (skipn m1 have) _ (length (k_playback k) - m2) T1 E2 ltac:(lia)) as (F1 & F2 & F3 & T2).
    rewrite (skipn_all2 (skipn m1 have)) in F2 by lia.
    rewrite F1, F2, F3, E1, E3. rewrite !app_length, !map_length, !seq_length, !repeat_length.
    replace (m1 + (length (k_capture k) - m1)) with (length (k_capture k)) by lia.
    replace (m2 + (length (k_playback k) - m2)) with (length (k_playback k)) by lia.
    repeat split. exact T2.
  Qed.

  Lemma firstn_self {T} (l : list T) m : m = length l -> firstn m l = l.
  Proof. intros ->. apply firstn_all. Qed.

  Lemma register_ports_ok (s : state F) : tied (t_server s) -> v_ports (t_server s) = [] -> t_init s = false ->
    t_capture s = repeat None (length (k_capture k)) -> t_playback s = repeat None (length (k_playback k)) ->
    let '(r, s') := register_ports accepts k s in
    v_active (t_server s') = v_active (t_server s) /\ tied (t_server s') /\ t_init s' = false
    /\ t_callback s' = t_callback s
    /\ (startable /\ r = Ok tt
        /\ (exists i, v_ports (t_server s') = mkports i wanted
            /\ v_next (t_server s') = i + length wanted
            /\ t_capture s' = map Some (seq i (length (k_capture k)))
            /\ t_playback s' = map Some (seq (i + length (k_capture k)) (length (k_playback k))))
        \/ ~ startable /\ r = Throw RuntimeError /\ v_ports (t_server s') = []
           /\ t_capture s' = repeat None (length (k_capture k))
           /\ t_playback s' = repeat None (length (k_playback k))).
  Proof.
    intros T Ep Ei Ec Epl. unfold register_ports. rewrite Ec.
    assert (Lk := tied_no_ports _ T Ep).
    destruct (register_loop_ok Capture (k_capture k) (t_server s) (v_next (t_server s)) []) as (m1 & L1 & T1 & R1).
    { rewrite Ep. reflexivity. } { cbn. lia. }
    rewrite R1. cbn [app] in *. rewrite Lk in *.
    assert (Split : taken [] wanted = true <->
      (taken [] (map (fun n => (Capture, short_name n)) (k_capture k)) = true
       /\ taken (map (fun n => (Capture, short_name n)) (k_capture k))
                (map (fun n => (Playback, short_name n)) (k_playback k)) = true)).
    { unfold wanted. rewrite taken_app. cbn [app]. apply andb_true_iff. }
    destruct (Nat.eqb_spec m1 (length (k_capture k))) as [E1|E1].
    - rewrite Epl. rewrite (firstn_self (k_capture k) m1 E1).
      set (v1 := {| v_next := _ |}).
      destruct (register_loop_ok Playback (k_playback k) v1 (v_next (t_server s))
                  (map (fun n => (Capture, short_name n)) (k_capture k))) as (m2 & L2 & T2 & R2).
      { reflexivity. } { unfold v1. cbn. rewrite map_length. lia. }
      rewrite R2. cbn [v_next v_links v_active] in *. unfold v1 at 2. cbn [v_next].
      destruct (Nat.eqb_spec m2 (length (k_playback k))) as [E2|E2].
      + cbn [t_server t_init t_callback v_active v_links]. split; [reflexivity|]. split; [intros c []|].
        split; [exact Ei|]. split; [reflexivity|]. left.
        split; [apply startable_taken, Split; split; [apply T1; exact E1|apply T2; exact E2]|].
        split; [reflexivity|]. exists (v_next (t_server s)). rewrite (firstn_self (k_playback k) m2 E2).
        cbn [v_ports v_next t_capture t_playback]. fold wanted. subst m1 m2. rewrite !Nat.sub_diag, wanted_length.
        cbn [repeat]. rewrite !app_nil_r. repeat split. unfold v1. cbn. lia.
      + match goal with |- context [unregister_ports k ?s2] => set (s2' := s2) end.
        destruct (unregister_ports_ok s2' (v_next (t_server s))
                   (map (fun n => (Capture, short_name n)) (k_capture k)
                    ++ map (fun n => (Playback, short_name n)) (firstn m2 (k_playback k))) m1 m2)
          as (U1 & U2 & U3 & U4 & U5 & U6 & U7 & U8).
        { intros c []. } { reflexivity. }
        { rewrite app_length, !map_length, firstn_length. lia. } { exact L1. } { exact L2. } { reflexivity. } { reflexivity. }
        split; [rewrite U3; reflexivity|]. split; [exact U1|]. split; [rewrite U7; exact Ei|]. split; [rewrite U8; reflexivity|].
        right. split; [|split; [reflexivity|split; [exact U2|split; [exact U5|exact U6]]]].
        rewrite startable_taken, Split. intros (_ & H). apply T2 in H. contradiction.
    - match goal with |- context [unregister_ports k ?s2] => set (s2' := s2) end.
      destruct (unregister_ports_ok s2' (v_next (t_server s))
                 (map (fun n => (Capture, short_name n)) (firstn m1 (k_capture k))) m1 0)
        as (U1 & U2 & U3 & U4 & U5 & U6 & U7 & U8).
      { intros c []. } { reflexivity. } { rewrite map_length, firstn_length. lia. } { exact L1. } { lia. } { reflexivity. }
      { unfold s2'. cbn. rewrite Nat.sub_0_r. exact Epl. }
      split; [rewrite U3; reflexivity|]. split; [exact U1|]. split; [rewrite U7; exact Ei|]. split; [rewrite U8; reflexivity|].
      right. split; [|split; [reflexivity|split; [exact U2|split; [exact U5|exact U6]]]].
      rewrite startable_taken, Split. intros (H & _). apply T1 in H. contradiction.
  Qed.

  Lemma fold_connect_keeps (g : text * text -> text * text) l : forall v,
    (forall p, (exists n, fst (g p) = full n) \/ (exists n, snd (g p) = full n)) -> tied v ->
    let v' := fold_left (fun v p => server_connect other_output other_input k (fst (g p)) (snd (g p)) v) l v in
    v_next v' = v_next v /\ v_ports v' = v_ports v /\ v_active v' = v_active v /\ tied v'.
  Proof.
    induction l as [|p r IH]; intros v Hg T; cbv zeta; cbn [fold_left]; [repeat split; exact T|].
    destruct (connect_keeps (fst (g p)) (snd (g p)) v (Hg p) T) as (E1 & E2 & E3 & T').
    destruct (IH _ Hg T') as (F1 & F2 & F3 & F4). rewrite F1, F2, F3. repeat split; assumption.
  Qed.
  Lemma connect_ports_keeps (s : state F) : tied (t_server s) ->
    let s' := connect_ports other_output other_input k s in
    v_next (t_server s') = v_next (t_server s) /\ v_ports (t_server s') = v_ports (t_server s)
    /\ v_active (t_server s') = v_active (t_server s) /\ tied (t_server s')
    /\ t_capture s' = t_capture s /\ t_playback s' = t_playback s /\ t_callback s' = t_callback s.
  Proof.
    intros T. cbv zeta. unfold connect_ports. cbn [t_server t_capture t_playback t_callback].
    set (v1 := if k_capture_auto k then _ else _).
    assert (H1 : v_next v1 = v_next (t_server s) /\ v_ports v1 = v_ports (t_server s)
                 /\ v_active v1 = v_active (t_server s) /\ tied v1).
    { unfold v1. destruct (k_capture_auto k); [|repeat split; exact T].
      apply (fold_connect_keeps (fun p => (snd p, full (fst p)))); [|exact T].
      intros p. right. exists (fst p). reflexivity. }
    destruct H1 as (E1 & E2 & E3 & T1). rewrite <- E1, <- E2, <- E3.
    destruct (k_playback_auto k); [|repeat split; exact T1].
    destruct (fold_connect_keeps (fun p => (full (fst p), snd p)) (combine (k_playback k) (k_playback_ext k)) v1)
      as (F1 & F2 & F3 & F4); [intros p; left; exists (fst p); reflexivity|exact T1|].
    cbn [fst snd] in *. repeat split; assumption.
  Qed.
  Lemma disconnect_ports_keeps (s : state F) : tied (t_server s) ->
    let s' := disconnect_ports k s in
    v_next (t_server s') = v_next (t_server s) /\ v_ports (t_server s') = v_ports (t_server s)
    /\ v_active (t_server s') = v_active (t_server s) /\ tied (t_server s')
    /\ t_capture s' = t_capture s /\ t_playback s' = t_playback s /\ t_callback s' = t_callback s /\ t_init s' = t_init s.
  Proof.
    intros T. cbv zeta. unfold disconnect_ports. cbn [t_server t_capture t_playback t_callback t_init].
    set (v1 := if k_capture_auto k then _ else _).
    assert (H1 : v_next v1 = v_next (t_server s) /\ v_ports v1 = v_ports (t_server s)
                 /\ v_active v1 = v_active (t_server s) /\ tied v1).
    { unfold v1. destruct (k_capture_auto k); [|repeat split; exact T]. apply disconnect_loop_keeps. exact T. }
    destruct H1 as (E1 & E2 & E3 & T1). rewrite <- E1, <- E2, <- E3.
    destruct (k_playback_auto k); [|repeat split; exact T1].
    destruct (disconnect_loop_keeps (t_playback s) v1 T1) as (F1 & F2 & F3 & F4). repeat split; assumption.
  Qed.

  (** disconnecting and unregistering everything *)
  Lemma teardown s : ready s -> t_init s = true ->
    let s' := unregister_ports k (disconnect_ports k s) in
    tied (t_server s') /\ v_ports (t_server s') = [] /\ v_active (t_server s') = true
    /\ t_capture s' = repeat None (length (k_capture k)) /\ t_playback s' = repeat None (length (k_playback k))
    /\ t_callback s' = t_callback s.
  Proof.
    intros (T & R) Ei. rewrite Ei in R. destruct R as (Ac & i & Ep & En & Ec & Epl). cbv zeta.
    destruct (disconnect_ports_keeps s T) as (D1 & D2 & D3 & D4 & D5 & D6 & D7 & D8).
    destruct (unregister_ports_ok (disconnect_ports k s) i wanted (length (k_capture k)) (length (k_playback k)))
      as (U1 & U2 & U3 & U4 & U5 & U6 & U7 & U8).
    { exact D4. } { rewrite D2. exact Ep. } { apply wanted_length. } { lia. } { lia. }
    { rewrite D5, Ec, Nat.sub_diag. cbn [repeat]. rewrite app_nil_r. reflexivity. }
    { rewrite D6, Epl, Nat.sub_diag. cbn [repeat]. rewrite app_nil_r. reflexivity. }
    rewrite U3, D3, U8, D7. repeat split; assumption.
  Qed.

  (** *** Abstract life cycle *)
  (** whether the interface is started and the client active, and the registered callback *)
  Record spec := { p_init : bool; p_active : bool; p_callback : option F }.
  Definition spec_initial : spec := {| p_init := false; p_active := false; p_callback := None |}.
  (** [ok]: whether the server accepts the ports of the configuration *)
  Definition spec_step (ok : bool) (pw : spec * W) (o : op A F) : (spec * W) * event A :=
    let (p, w) := pw in
    match o with
    | Register f => (({| p_init := p_init p; p_active := p_active p; p_callback := Some f |}, w), Answered true)
    | Unregister f =>
        let hit := match p_callback p with Some g => feq g f | None => false end in
        (({| p_init := p_init p; p_active := p_active p;
             p_callback := if hit then None else p_callback p |}, w), Answered hit)
    | Start true =>
        (({| p_init := false; p_active := p_active p; p_callback := p_callback p |}, w), Returned (Throw RuntimeError))
    | Start false =>
        (({| p_init := ok; p_active := true; p_callback := p_callback p |}, w),
         Returned (if ok then Ok tt else Throw RuntimeError))
    | Stop fails =>
        if p_init p
        then (({| p_init := false; p_active := fails; p_callback := p_callback p |}, w),
              Returned (if fails then Throw RuntimeError else Ok tt))
        else ((p, w), Returned (Ok tt))
    | Process n input =>
        if negb (p_active p) then ((p, w), Quiet)
        else if negb (n =? k_period k) then ((p, w), Code 1)
        else
          match p_callback p with
          | Some f =>
              if p_init p then
                match call f w (map (fun c => input (short_name c)) (k_capture k)) with
                | (w', Ok ys) => ((p, w'), Played (combine (map short_name (k_playback k)) ys))
                | (w', Throw CharPointer) => ((p, w'), Escaped CharPointer)
                | (w', Throw _) => ((p, w'), Code 1)
                | (w', UB) => ((p, w'), Undefined)
                end
              else ((p, w), Code 0)
          | None => ((p, w), Code 0)
          end
    end.

  Definition matches (s : state F) (p : spec) : Prop :=
    ready s /\ t_init s = p_init p /\ v_active (t_server s) = p_active p /\ t_callback s = p_callback p.

  Lemma initial_matches : matches (initial k) spec_initial.
  Proof. repeat split. intros c []. Qed.

  Lemma start_matches ok fails s p w : (ok = true <-> startable) -> matches s p ->
    let '(r, s') := jack_start other_output other_input accepts k fails s in
    matches s' (fst (fst (spec_step ok (p, w) (Start fails))))
    /\ Returned r = snd (spec_step ok (p, w) (Start fails)).
  Proof.
    intros Hok (R & Ei & Ea & Ec). unfold jack_start.
    set (s1 := if t_init s then _ else s).
    assert (H1 : tied (t_server s1) /\ v_ports (t_server s1) = [] /\ v_active (t_server s1) = p_active p
                 /\ t_capture s1 = repeat None (length (k_capture k))
                 /\ t_playback s1 = repeat None (length (k_playback k))
                 /\ t_callback s1 = p_callback p /\ t_init s1 = false).
    { unfold s1. destruct (t_init s) eqn:Ei'.
      - destruct (teardown s R Ei') as (T1 & T2 & T3 & T4 & T5 & T6).
        cbn [with_init t_server t_capture t_playback t_callback t_init]. rewrite T6.
        assert (Aa : v_active (t_server s) = true).
        { destruct R as (_ & R). rewrite Ei' in R. exact (proj1 R). }
        rewrite <- Ea, Aa. repeat split; assumption.
      - destruct R as (T & R). rewrite Ei' in R. destruct R as (R1 & R2 & R3). repeat split; assumption. }
    clearbody s1. destruct H1 as (T1 & Ep & Ea1 & Ec1 & Epl1 & Ecb & Ei1).
    destruct fails; cbn [spec_step fst snd].
    - split; [|reflexivity]. unfold matches, ready. rewrite Ei1. cbn. repeat split; assumption.
    - set (s2 := with_server (set_active true (t_server s1)) s1).
      assert (R2 := register_ports_ok s2 T1 Ep Ei1 Ec1 Epl1).
      destruct (register_ports accepts k s2) as [r s3] eqn:Er. destruct R2 as (A3 & T3 & I3 & C3 & Cases).
      destruct Cases as [(St & -> & i & P1 & P2 & P3 & P4)|(St & -> & P1 & P2 & P3)].
      + assert (ok = true) by (apply Hok; exact St). subst ok.
        destruct (connect_ports_keeps s3 T3) as (K1 & K2 & K3 & K4 & K5 & K6 & K7).
        split; [|reflexivity]. unfold matches, ready. cbn [with_init t_init t_server t_callback p_init p_active p_callback t_capture t_playback].
        rewrite K1, K2, K3, K5, K6, K7, A3, C3. split; [|repeat split; exact Ecb].
        split; [exact K4|]. split; [reflexivity|]. exists i. repeat split; assumption.
      + assert (ok = false) by (destruct ok; [exfalso; apply St, Hok; reflexivity|reflexivity]). subst ok.
        split; [|reflexivity]. unfold matches, ready. rewrite I3, A3, C3. cbn. repeat split; assumption.
  Qed.

  Lemma stop_matches ok fails s p w : matches s p ->
    let '(r, s') := jack_stop k fails s in
    matches s' (fst (fst (spec_step ok (p, w) (Stop fails)))) /\ Returned r = snd (spec_step ok (p, w) (Stop fails)).
  Proof.
    intros (R & Ei & Ea & Ec). unfold jack_stop. cbn [spec_step]. rewrite <- Ei. destruct (t_init s) eqn:Ei'.
    - assert (Q : unregister_ports k (disconnect_ports k (with_init false s))
                  = with_init false (unregister_ports k (disconnect_ports k s))) by reflexivity.
      rewrite Q. destruct (teardown s R Ei') as (T1 & T2 & T3 & T4 & T5 & T6).
      destruct fails; cbn [fst snd]; (split; [|reflexivity]); unfold matches, ready; cbn [with_init with_server t_init t_server t_callback p_init p_active p_callback t_capture t_playback].
      + rewrite T6. repeat split; assumption.
      + rewrite T6. cbn [set_active v_active v_ports]. repeat split; try assumption. intros c [].
    - split; [|reflexivity]. cbn [fst]. split; [exact R|]. split; [rewrite Ei'; exact Ei|]. split; [exact Ea|exact Ec].
  Qed.

  Lemma port_names_ok d (L : list (direction * text)) v i : v_ports v = mkports i L ->
    forall names j, (forall q n, nth_error names q = Some n -> nth_error L (j + q) = Some (d, n)) ->
    port_names d (map Some (seq (i + j) (length names))) v = Ok names.
  Proof.
    intros Ep. induction names as [|n r IH]; intros j H; [reflexivity|].
    cbn [length seq map]. unfold port_names. cbn [map_res]. unfold find_port. rewrite Ep.
    assert (H0 := H 0 n eq_refl). rewrite Nat.add_0_r in H0. rewrite (mkports_find L i j d n H0). cbn [o_dir o_name bind].
    replace (dir_eqb d d) with true by (destruct d; reflexivity). cbn [bind].
    fold (@port_names). specialize (IH (S j)). unfold port_names, find_port in IH. rewrite Ep in IH.
    replace (S (i + j)) with (i + S j) by lia. rewrite IH; [reflexivity|].
    intros q m Hq. specialize (H (S q) m Hq). replace (S j + q) with (j + S q) by lia. exact H.
  Qed.

  Lemma process_matches n input s p w ok : matches s p ->
    step (s, w) (Process n input)
    = ((s, snd (fst (spec_step ok (p, w) (Process n input)))), snd (spec_step ok (p, w) (Process n input)))
    /\ fst (fst (spec_step ok (p, w) (Process n input))) = p.
  Proof.
    intros (R & Ei & Ea & Ec). cbn [jack_step spec_step]. rewrite Ea. destruct (p_active p) eqn:Eap; cbn [negb]; [|split; reflexivity].
    unfold jack_process. destruct (n =? k_period k); cbn [negb]; [|split; reflexivity]. rewrite Ec.
    destruct (p_callback p) as [f|]; [|split; reflexivity]. rewrite Ei. destruct (p_init p) eqn:Eip; [|split; reflexivity].
    destruct R as (_ & R). rewrite Ei in R. destruct R as (_ & i & Ep & _ & E1 & E2). rewrite E1, E2.
    assert (N1 : port_names Capture (map Some (seq i (length (k_capture k)))) (t_server s) = Ok (map short_name (k_capture k))).
    { rewrite <- (map_length short_name (k_capture k)). replace i with (i + 0) at 1 by lia.
      apply (port_names_ok Capture wanted); [exact Ep|]. intros q m H. cbn [plus]. unfold wanted.
      rewrite nth_error_app1.
      - rewrite nth_error_map in H |- *. destruct (nth_error (k_capture k) q); [|discriminate]. cbn in *. congruence.
      - rewrite map_length. rewrite <- (map_length short_name). apply nth_error_Some. congruence. }
    assert (N2 : port_names Playback (map Some (seq (i + length (k_capture k)) (length (k_playback k)))) (t_server s)
                 = Ok (map short_name (k_playback k))).
    { rewrite <- (map_length short_name (k_playback k)).
      apply (port_names_ok Playback wanted); [exact Ep|]. intros q m H. unfold wanted.
      rewrite nth_error_app2 by (rewrite map_length; lia). rewrite map_length.
      replace (length (k_capture k) + q - length (k_capture k)) with q by lia.
      rewrite nth_error_map in H |- *. destruct (nth_error (k_playback k) q); [|discriminate]. cbn in *. congruence. }
    rewrite N1, N2. cbn [bind]. rewrite map_map.
    destruct (call f w _) as [w' [ys|e|]]; try (split; reflexivity). destruct e; split; reflexivity.
  Qed.

  Theorem run_matches ok : (ok = true <-> startable) -> forall os s p w, matches s p ->
    outputs step (s, w) os = outputs (spec_step ok) (p, w) os
    /\ matches (fst (final step (s, w) os)) (fst (final (spec_step ok) (p, w) os))
    /\ snd (final step (s, w) os) = snd (final (spec_step ok) (p, w) os).
  Proof.
    intros Hok. induction os as [|o os IH]; intros s p w M; [repeat split; apply M|].
    rewrite !outputs_cons, !final_cons.
    assert (St : exists s', step (s, w) o = ((s', snd (fst (spec_step ok (p, w) o))), snd (spec_step ok (p, w) o))
                       /\ matches s' (fst (fst (spec_step ok (p, w) o)))).
    { destruct o as [f|f|fails|fails|n input].
      - eexists. split; [reflexivity|]. destruct M as (R & E1 & E2 & E3). repeat split; try assumption; apply R.
      - destruct M as (R & E1 & E2 & E3). cbn [jack_step spec_step]. unfold jack_unregister. rewrite E3.
        destruct (p_callback p) as [g|] eqn:Ecb; [destruct (feq g f)|]; eexists; (split; [reflexivity|]); repeat split;
          cbn; try assumption; try reflexivity; apply R.
      - assert (Q := start_matches ok fails s p w Hok M). cbn [jack_step].
        destruct (jack_start other_output other_input accepts k fails s) as [r s']. destruct Q as (Q1 & Q2). exists s'. split; [|exact Q1].
        rewrite <- Q2. destruct fails; reflexivity.
      - assert (Q := stop_matches ok fails s p w M). cbn [jack_step].
        destruct (jack_stop k fails s) as [r s']. destruct Q as (Q1 & Q2). exists s'. split; [|exact Q1].
        rewrite <- Q2. cbn [spec_step]. destruct (p_init p); reflexivity.
      - destruct (process_matches n input s p w ok M) as (Q1 & Q2). exists s. rewrite Q2. split; [exact Q1|exact M]. }
    destruct St as (s' & E & M'). rewrite E. destruct (spec_step ok (p, w) o) as [[p' w'] e] eqn:Es. cbn [fst snd] in *.
    destruct (IH s' p' w' M') as (I1 & I2 & I3). rewrite I1. repeat split; assumption || apply I2.
  Qed.

  (** *** Connections *)
  Definition plain : Prop :=
    (forall n, In n (k_capture k ++ k_playback k) -> short_name n = n)
    /\ (forall x n, In x (k_capture_ext k ++ k_playback_ext k) -> x <> full n).
  Definition wanted_links : list (text * text) :=
    (if k_capture_auto k
     then filter (fun c => other_output (fst c)) (combine (k_capture_ext k) (map full (k_capture k))) else [])
    ++ (if k_playback_auto k
        then filter (fun c => other_input (snd c)) (combine (map full (k_playback k)) (k_playback_ext k)) else []).

  Lemma full_inj a b : full a = full b -> a = b.
  Proof. unfold full_name. intros H. apply app_inv_head in H. apply app_inv_head in H. exact H. Qed.
  Lemma own_false d x v : (forall n, x <> full n) -> own k d x v = false.
  Proof.
    intros H. unfold own. destruct (existsb _ _) eqn:E; [|reflexivity]. apply existsb_exists in E.
    destruct E as (p & _ & Ep). apply andb_true_iff in Ep as (_ & Ep).
    destruct (text_eqb_spec (full (o_name p)) x) as [Q|]; [|discriminate]. symmetry in Q. exfalso. exact (H _ Q).
  Qed.
  Lemma own_true d n v i : v_ports v = mkports i wanted -> In (d, n) wanted -> own k d (full n) v = true.
  Proof.
    intros Ep I. unfold own. apply existsb_exists. rewrite Ep.
    destruct (mkports_in_inv wanted i d n I) as (p & I' & E1 & E2). exists p. split; [exact I'|].
    rewrite E1, E2, text_eqb_refl. destruct d; reflexivity.
  Qed.
  Lemma existsb_pair_false c l : ~ In c l -> existsb (pair_eqb c) l = false.
  Proof.
    intros N. destruct (existsb (pair_eqb c) l) eqn:E; [|reflexivity]. exfalso. apply N.
    apply existsb_exists in E. destruct E as (c' & I & Ec). unfold pair_eqb in Ec.
    apply andb_true_iff in Ec as (E1 & E2).
    destruct (text_eqb_spec (fst c) (fst c')); [|discriminate]. destruct (text_eqb_spec (snd c) (snd c')); [|discriminate].
    replace c with c'; [exact I|]. destruct c, c'; cbn in *; congruence.
  Qed.

  Lemma connect_capture i : forall names exts v, v_ports v = mkports i wanted -> v_active v = true ->
    NoDup names -> (forall n, In n names -> In (Capture, n) wanted) ->
    (forall x n, In x exts -> x <> full n) ->
    (forall c n, In c (v_links v) -> In n names -> snd c <> full n) ->
    let v' := fold_left (fun v p => server_connect other_output other_input k (snd p) (full (fst p)) v) (combine names exts) v in
    v_links v' = v_links v ++ filter (fun c => other_output (fst c)) (combine exts (map full names))
    /\ v_ports v' = v_ports v /\ v_active v' = v_active v.
  Proof.
    induction names as [|n r IH]; intros exts v Ep Ea N Hn Hx Hl; cbv zeta.
    - cbn. destruct exts; cbn; rewrite app_nil_r; repeat split.
    - destruct exts as [|x q]; [cbn; rewrite app_nil_r; repeat split|]. cbn [combine fold_left map filter fst snd].
      inversion N as [|? ? N1 N2]; subst.
      assert (E : server_connect other_output other_input k x (full n) v
                  = if other_output x
                    then {| v_next := v_next v; v_ports := v_ports v; v_links := v_links v ++ [(x, full n)]; v_active := v_active v |}
                    else v).
      { unfold server_connect. rewrite own_false by (intros m; apply Hx; left; reflexivity).
        rewrite (own_true Capture n v i Ep) by (apply Hn; left; reflexivity).
        rewrite existsb_pair_false, Ea.
        - cbn [orb negb andb]. rewrite !andb_true_r. reflexivity.
        - intros I. apply (Hl _ n I (or_introl eq_refl)). reflexivity. }
      rewrite E. destruct (other_output x) eqn:Eo.
      + match goal with |- context [fold_left _ _ ?v1] => destruct (IH q v1) as (R1 & R2 & R3) end.
        * exact Ep. * exact Ea. * exact N2. * intros m I. apply Hn. right. exact I.
        * intros y m I. apply Hx. right. exact I.
        * intros c m I Im. cbn [v_links] in I. apply in_app_or in I. destruct I as [I|[I|[]]].
          -- apply Hl; [exact I|right; exact Im].
          -- subst c. cbn. intros Q. apply full_inj in Q. subst m. contradiction.
        * rewrite R1. cbn [v_links]. rewrite <- app_assoc. repeat split; assumption.
      + destruct (IH q v Ep Ea N2) as (R1 & R2 & R3).
        * intros m I. apply Hn. right. exact I. * intros y m I. apply Hx. right. exact I.
        * intros c m I Im. apply Hl; [exact I|right; exact Im].
        * rewrite R1. repeat split; assumption.
  Qed.
  Lemma connect_playback i : forall names exts v, v_ports v = mkports i wanted -> v_active v = true ->
    NoDup names -> (forall n, In n names -> In (Playback, n) wanted) ->
    (forall x n, In x exts -> x <> full n) ->
    (forall c n, In c (v_links v) -> In n names -> fst c <> full n) ->
    let v' := fold_left (fun v p => server_connect other_output other_input k (full (fst p)) (snd p) v) (combine names exts) v in
    v_links v' = v_links v ++ filter (fun c => other_input (snd c)) (combine (map full names) exts).
  Proof.
    induction names as [|n r IH]; intros exts v Ep Ea N Hn Hx Hl; cbv zeta.
    - cbn. rewrite app_nil_r. reflexivity.
    - destruct exts as [|x q]; [cbn; rewrite app_nil_r; reflexivity|]. cbn [combine fold_left map filter fst snd].
      inversion N as [|? ? N1 N2]; subst.
      assert (E : server_connect other_output other_input k (full n) x v
                  = if other_input x
                    then {| v_next := v_next v; v_ports := v_ports v; v_links := v_links v ++ [(full n, x)]; v_active := v_active v |}
                    else v).
      { unfold server_connect. rewrite (own_false Capture x) by (intros m; apply Hx; left; reflexivity).
        rewrite (own_true Playback n v i Ep) by (apply Hn; left; reflexivity).
        rewrite existsb_pair_false, Ea.
        - cbn [orb negb andb]. rewrite !andb_true_r. reflexivity.
        - intros I. apply (Hl _ n I (or_introl eq_refl)). reflexivity. }
      rewrite E. destruct (other_input x) eqn:Eo.
      + match goal with |- context [fold_left _ _ ?v1] => assert (R := IH q v1) end. cbv zeta in R. rewrite R.
        * cbn [v_links]. rewrite <- app_assoc. reflexivity.
        * exact Ep. * exact Ea. * exact N2. * intros m I. apply Hn. right. exact I.
        * intros y m I. apply Hx. right. exact I.
        * intros c m I Im. cbn [v_links] in I. apply in_app_or in I. destruct I as [I|[I|[]]].
          -- apply Hl; [exact I|right; exact Im].
          -- subst c. cbn. intros Q. apply full_inj in Q. subst m. contradiction.
      + apply (IH q v Ep Ea N2).
        * intros m I. apply Hn. right. exact I. * intros y m I. apply Hx. right. exact I.
        * intros c m I Im. apply Hl; [exact I|right; exact Im].
  Qed.

  Lemma connect_ports_links (s : state F) i : plain -> startable -> v_ports (t_server s) = mkports i wanted ->
    v_active (t_server s) = true -> v_links (t_server s) = [] ->
    v_links (t_server (connect_ports other_output other_input k s)) = wanted_links.
  Proof.
    intros (P1 & P2) (Nd & _) Ep Ea El.
    assert (Ew : map snd wanted = k_capture k ++ k_playback k).
    { unfold wanted. rewrite map_app, !map_map. cbn. rewrite <- (map_id (k_capture k ++ k_playback k)), map_app.
      f_equal; apply map_ext_in; intros n I; apply P1, in_or_app; [left|right]; exact I. }
    rewrite Ew in Nd. destruct (NoDup_app_l _ _ Nd) as (N1 & N2).
    assert (W1 : forall n, In n (k_capture k) -> In (Capture, n) wanted).
    { intros n I. unfold wanted. apply in_or_app. left. apply in_map_iff. exists n. split; [|exact I].
      rewrite P1; [reflexivity|apply in_or_app; left; exact I]. }
    assert (W2 : forall n, In n (k_playback k) -> In (Playback, n) wanted).
    { intros n I. unfold wanted. apply in_or_app. right. apply in_map_iff. exists n. split; [|exact I].
      rewrite P1; [reflexivity|apply in_or_app; right; exact I]. }
    unfold connect_ports, wanted_links. cbn [t_server]. set (v1 := if k_capture_auto k then _ else t_server s).
    assert (H1 : v_links v1 = (if k_capture_auto k
       then filter (fun c => other_output (fst c)) (combine (k_capture_ext k) (map full (k_capture k))) else [])
       /\ v_ports v1 = mkports i wanted /\ v_active v1 = true).
    { unfold v1. destruct (k_capture_auto k); [|repeat split; assumption].
      destruct (connect_capture i (k_capture k) (k_capture_ext k) (t_server s) Ep Ea N1 W1) as (R1 & R2 & R3).
      - intros x n I. apply P2, in_or_app. left. exact I.
      - intros c n I. rewrite El in I. contradiction.
      - rewrite R1, R2, R3, El. repeat split; assumption. }
    destruct H1 as (L1 & E1 & A1). rewrite <- L1. destruct (k_playback_auto k); [|rewrite app_nil_r; reflexivity].
    rewrite (connect_playback i (k_playback k) (k_playback_ext k) v1 E1 A1 N2 W2).
    - reflexivity.
    - intros x n I. apply P2, in_or_app. right. exact I.
    - intros c n I _. rewrite L1 in I. destruct (k_capture_auto k); [|contradiction].
      apply filter_In in I as (I & _). destruct c as [x y]. apply in_combine_l in I. cbn. apply P2, in_or_app. left. exact I.
  Qed.

  Definition linked (s : state F) : Prop :=
    t_init s = true -> v_links (t_server s) = wanted_links.
  Lemma step_linked ok s p w o : (ok = true <-> startable) -> plain -> matches s p -> linked s -> linked (fst (fst (step (s, w) o))).
  Proof.
    intros Hok Hp M L. destruct o as [f|f|fails|fails|n input]; cbn [jack_step].
    - exact L.
    - unfold jack_unregister. destruct (t_callback s) as [g|]; [destruct (feq g f)|]; exact L.
    - destruct M as (R & Ei & Ea & Ec). unfold jack_start. set (s1 := if t_init s then _ else s).
      assert (H1 : tied (t_server s1) /\ v_ports (t_server s1) = []
                 /\ t_capture s1 = repeat None (length (k_capture k))
                 /\ t_playback s1 = repeat None (length (k_playback k)) /\ t_init s1 = false).
      { unfold s1. destruct (t_init s) eqn:Ei'.
        - destruct (teardown s R Ei') as (T1 & T2 & T3 & T4 & T5 & T6). repeat split; assumption.
        - destruct R as (T & R). rewrite Ei' in R. destruct R as (R1 & R2 & R3). repeat split; assumption. }
      clearbody s1. destruct H1 as (T1 & Ep & Ec1 & Epl1 & Ei1). destruct fails.
      + unfold linked. cbn [fst]. rewrite Ei1. discriminate.
      + set (s2 := with_server (set_active true (t_server s1)) s1).
        assert (R2 := register_ports_ok s2 T1 Ep Ei1 Ec1 Epl1).
        assert (L2 : v_links (t_server (snd (register_ports accepts k s2))) = []
                     \/ fst (register_ports accepts k s2) <> Ok tt).
        { unfold register_ports.
          assert (Lk : v_links (t_server s2) = []) by (apply tied_no_ports; assumption).
          assert (Q : t_capture s2 = repeat None (length (k_capture k))) by exact Ec1. rewrite Q.
          assert (Q' : t_playback s2 = repeat None (length (k_playback k))) by exact Epl1. rewrite Q'.
          destruct (register_loop_ok Capture (k_capture k) (t_server s2) (v_next (t_server s2)) []) as (m1 & L1 & U1 & V1).
          { unfold s2. cbn. rewrite Ep. reflexivity. } { cbn. lia. }
          rewrite V1. destruct (m1 =? length (k_capture k)) eqn:Em; [|right; discriminate].
          set (v1 := {| v_next := _ |}).
          apply Nat.eqb_eq in Em.
          destruct (register_loop_ok Playback (k_playback k) v1 (v_next (t_server s2))
                    (map (fun n => (Capture, short_name n)) (k_capture k))) as (m2 & L2 & U2 & V2).
          { unfold v1. cbn [v_ports app]. rewrite (firstn_self (k_capture k) m1 Em). reflexivity. }
          { unfold v1. cbn. rewrite map_length. lia. }
          rewrite V2. destruct (m2 =? length (k_playback k)); [|right; discriminate].
          left. cbn [snd t_server v_links]. exact Lk. }
        destruct (register_ports accepts k s2) as [r s3]. destruct R2 as (A3 & T3 & I3 & C3 & Cases). cbn [fst snd] in L2.
        destruct Cases as [(St & -> & i & P1 & P2 & P3 & P4)|(St & -> & P1 & P2 & P3)].
        * intros _. cbn [fst with_init t_server]. destruct L2 as [L2|L2]; [|exfalso; apply L2; reflexivity].
          apply (connect_ports_links s3 i Hp St P1); [rewrite A3; reflexivity|exact L2].
        * unfold linked. cbn [fst]. rewrite I3. discriminate.
    - unfold jack_stop. destruct (t_init s) eqn:Ei'; [|exact L]. destruct fails; unfold linked; cbn; discriminate.
    - destruct (v_active (t_server s)); [|exact L]. destruct (jack_process _ _ _ _ _ _). exact L.
  Qed.
  Theorem run_linked ok : (ok = true <-> startable) -> plain -> forall os s p w, matches s p -> linked s ->
    linked (fst (final step (s, w) os)).
  Proof.
    intros Hok Hp. induction os as [|o os IH]; intros s p w M L; [exact L|]. rewrite final_cons.
    assert (L' := step_linked ok s p w o Hok Hp M L).
    destruct (run_matches ok Hok [o] s p w M) as (_ & M' & _). rewrite !final_cons in M'. cbn [final run fst] in M'.
    destruct (step (s, w) o) as [[s' w'] e]. cbn [fst] in *. apply (IH s' (fst (fst (spec_step ok (p, w) o))) w'); [|exact L'].
    destruct (spec_step ok (p, w) o) as [[p' w''] e']. exact M'.
  Qed.
End Life.
