(** Vocabulary of the statements about the panning calculator. *)
From Verif Require Import Base QuaternionModel ListenerModel VbapModel VbapSpec PannerModel.
From Coq Require Import Reals.
From Coq Require String.
Local Open Scope R_scope.

(** one-to-one names of loudspeakers, at least for the regular ones *)
Definition named (ids : list (String.string * nat)) (regular : nat) : Prop :=
  NoDup (map fst ids) /\ NoDup (map snd ids) /\ forall i, (i < regular)%nat -> In i (map snd ids).

(** size of a vector of gains: sum of the magnitudes or root of the power *)
Definition size_of (mode : normalisation) (g : list R) : R :=
  match mode with Amplitude => fold_right (fun x s => Rabs x + s) 0 g | Energy => sqrt (power g) | Default => 1 end.

(** What a channel of an object sounds like: gains for low frequencies, high frequencies and the
    diffuse part, before their levels are adjusted, and the diffuse ratio *)
Inductive voice (epsilon : R) (ids : list (String.string * nat)) (regular : nat) (v : vbap) : scene_object -> nat -> list R -> list R -> list R -> R -> Prop :=
  | voice_channel : forall chs d labels k ls g, nth_error labels k = Some ls -> length g = regular ->
      (forall i, (i < regular)%nat -> ((exists label, In label ls /\ In (label, i) ids) -> nth i g 0 = 1) /\ (~ (exists label, In label ls /\ In (label, i) ids) -> nth i g 0 = 0)) ->
      voice epsilon ids regular v (SceneObject chs (ChannelObject d labels)) k g g g d
  | voice_diffuse : forall ch, voice epsilon ids regular v (SceneObject [ch] DiffuseSource) 0 (repeat 0 regular) (repeat 0 regular) (repeat 1 regular) 1
  | voice_plane : forall ch az el dist g, calculateGainsUnNormalised v (P3 (dist * cos el * cos az) (dist * cos el * sin az) (dist * sin el)) true = Ok g ->
      voice epsilon ids regular v (SceneObject [ch] (PlaneWave az el dist)) 0 g (map sqrt g) (repeat 0 regular) 0
  | voice_point : forall ch p g, calculateGainsUnNormalised v p false = Ok g ->
      voice epsilon ids regular v (SceneObject [ch] (PointSource p)) 0 g (map sqrt g) (repeat 0 regular) 0
  | voice_point_diffuse : forall ch p d g, calculateGainsUnNormalised v p false = Ok g -> epsilon <= d ->
      voice epsilon ids regular v (SceneObject [ch] (PointSourceWithDiffuseness p d)) 0 g (map sqrt g) (repeat 1 regular) d
  | voice_point_direct : forall ch p d g, calculateGainsUnNormalised v p false = Ok g -> d < epsilon ->
      voice epsilon ids regular v (SceneObject [ch] (PointSourceWithDiffuseness p d)) 0 g (map sqrt g) (repeat 0 regular) d
  | voice_other : forall chs c k, (c = OtherContent \/ (length chs <> 1%nat /\ forall d labels, c <> ChannelObject d labels)) ->
      voice epsilon ids regular v (SceneObject chs c) k (repeat 0 regular) (repeat 0 regular) (repeat 0 regular) 0.

(** the last object vector and the listener position at that time *)
Fixpoint last_scene (inputs : list (option (pos3 R) * option (list scene_object))) (l : pos3 R) : option (list scene_object * pos3 R) :=
  match inputs with
  | [] => None
  | (l', os) :: rest =>
      let l'' := match l' with Some x => x | None => l end in
      match last_scene rest l'' with
      | Some s => Some s
      | None => match os with Some objects => Some (objects, l'') | None => None end
      end
  end.

(** column [ch] of a gain matrix *)
Definition column (regular columns : nat) (data : list R) (ch : nat) : list R := map (fun row => element columns data row ch) (seq 0 regular).
(** gains [g] at a given level *)
Definition at_level (epsilon : R) (mode : normalisation) (level : R) (g : list R) : list R := map (fun x => level / Rmax (size_of mode g) epsilon * x) g.
(** the normalisation in use *)
Definition lf_norm (mode : panning_mode) (x : normalisation) : normalisation :=
  match x with Default => if md_hf mode then Amplitude else Energy | _ => x end.
Definition or_energy (x : normalisation) : normalisation := match x with Default => Energy | _ => x end.

(** object channels that exist; channel [ch] is channel [k] of object [o] and nothing else uses it *)
Definition in_range (n : nat) (objects : list scene_object) : Prop := forall o c, In o objects -> In c (so_channels o) -> (c < n)%nat.
Definition only_user (objects : list scene_object) (o : scene_object) (k ch : nat) : Prop :=
  In o objects /\ nth_error (so_channels o) k = Some ch /\ count_occ Nat.eq_dec (concat (map so_channels objects)) ch = 1%nat.
(** position, type of propagation and diffuse ratio of a source *)
Definition source_of (c : content) : option (pos3 R * bool * R) :=
  match c with
  | PlaneWave az el dist => Some (P3 (dist * cos el * cos az) (dist * cos el * sin az) (dist * sin el), true, 0)
  | PointSource p => Some (p, false, 0)
  | PointSourceWithDiffuseness p d => Some (p, false, d)
  | _ => None
  end.
(** the object can be played: known labels for every channel, sources enclosed by a triplet *)
Definition playable (a : array) (ids : list (String.string * nat)) (l : pos3 R) (o : scene_object) : Prop :=
  match so_content o with
  | ChannelObject d labels => forall k, (k < length (so_channels o))%nat -> exists ls, nth_error labels k = Some ls /\ forall label, In label ls -> exists i, In (label, i) ids /\ (i < a_regular a)%nat
  | c => match source_of c with
         | Some (pos, pw, _) => length (so_channels o) = 1%nat -> exists t g, In t (a_triplets a) /\ coordinates a l t (seen a l pos pw) g /\ inside_cone (a_2D a) g
         | None => True
         end
  end.
(** every object vector with the listener position at that time *)
Fixpoint scenes (l : pos3 R) (inputs : list (option (pos3 R) * option (list scene_object))) : list (pos3 R * list scene_object) :=
  match inputs with
  | [] => []
  | (l', os) :: rest => let l'' := match l' with Some x => x | None => l end in match os with Some objects => (l'', objects) :: scenes l'' rest | None => scenes l'' rest end
  end.

(** all three outputs of one channel *)
Definition shown (regular n : nat) (mode : panning_mode) (p : panner) (ch : nat) (lf hf diffuse : list R) : Prop :=
  (if md_lf mode then exists d, n_lf p = Some d /\ column regular n d ch = lf else n_lf p = None)
  /\ (if md_hf mode then exists d, n_hf p = Some d /\ column regular n d ch = hf else n_hf p = None)
  /\ (if md_diffuse mode then exists d, n_diffuse p = Some d /\ column regular n d ch = diffuse else n_diffuse p = None).

(** the outputs for a scene *)
Definition scene_shown (epsilon : R) (a : array) (ids : list (String.string * nat)) (n : nat) (mode : panning_mode) (lfN hfN dN : normalisation) (s : option (list scene_object * pos3 R)) (p : panner) : Prop :=
  let silence := repeat 0 (a_regular a) in
  match s with
  | None => forall ch, (ch < n)%nat -> shown (a_regular a) n mode p ch silence silence silence
  | Some (objects, l) => in_range n objects -> exists v, setListenerPosition epsilon a l = Ok v /\ forall ch, (ch < n)%nat ->
      (~ In ch (concat (map so_channels objects)) -> shown (a_regular a) n mode p ch silence silence silence)
      /\ (forall o k, only_user objects o k ch -> exists lf hf df r, voice epsilon ids (a_regular a) v o k lf hf df r /\ (md_hf mode = true -> Forall (fun x => 0 <= x) lf)
          /\ shown (a_regular a) n mode p ch (at_level epsilon (lf_norm mode lfN) (1 - r) lf) (at_level epsilon (or_energy hfN) (1 - r) hf) (at_level epsilon (or_energy dN) r df))
  end.
