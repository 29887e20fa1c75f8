(** Vocabulary of the statements about vector base amplitude panning. *)
From Verif Require Import Base QuaternionModel VbapModel.
From Coq Require Import Reals.
Local Open Scope R_scope.

(** *** Vectors *)
Definition norm3 (a : pos3 R) : R := sqrt (px a * px a + py a * py a + pz a * pz a).
Definition scale3 (k : R) (a : pos3 R) : pos3 R := P3 (k * px a) (k * py a) (k * pz a).
Definition add3 (a b : pos3 R) : pos3 R := P3 (px a + px b) (py a + py b) (pz a + pz b).
Definition zero3 : pos3 R := P3 0 0 0.
(** the vector x u + y v + z w *)
Definition combine3 (x y z : R) (u v w : pos3 R) : pos3 R := add3 (scale3 x u) (add3 (scale3 y v) (scale3 z w)).
(** signed volume of the parallelepiped spanned by three vectors *)
Definition volume (u v w : pos3 R) : R :=
  px u * (py v * pz w - pz v * py w) - py u * (px v * pz w - pz v * px w) + pz u * (px v * py w - py v * px w).

Definition comb (g : R * R * R) (u v w : pos3 R) : pos3 R := combine3 (fst (fst g)) (snd (fst g)) (snd g) u v w.

(** the source lies in the cone of the three directions (in 2D, between the first two) *)
Definition inside_cone (is2D : bool) (g : R * R * R) : Prop :=
  0 <= fst (fst g) /\ 0 <= snd (fst g) /\ (is2D = true \/ 0 <= snd g).

Definition min3 (g : R * R * R) : R := Rmin (fst (fst g)) (Rmin (snd (fst g)) (snd g)).

(** at most one negative coordinate *)
Definition candidate (g : R * R * R) : Prop :=
  (0 <= fst (fst g) /\ 0 <= snd (fst g)) \/ (0 <= fst (fst g) /\ 0 <= snd g) \/ (0 <= snd (fst g) /\ 0 <= snd g).

(** sum of the directions of all loudspeakers, weighted by the gains *)
Fixpoint total (gains : list R) (us : list (pos3 R)) : pos3 R :=
  match gains, us with g :: gs, u :: us' => add3 (scale3 g u) (total gs us') | _, _ => zero3 end.
(** sum of the squared gains *)
Definition power (gains : list R) : R := fold_right (fun g s => g * g + s) 0 gains.

(** *** Directions of the loudspeakers *)
(** unit vector from the listener to a loudspeaker *)
Definition towards (listener s : pos3 R) : pos3 R :=
  let d := P3 (px s - px listener) (py s - py listener) (pz s - pz listener) in scale3 (/ norm3 d) d.
Definition distance (listener s : pos3 R) : R := norm3 (P3 (px s - px listener) (py s - py listener) (pz s - pz listener)).
Definition directions (a : array) (listener : pos3 R) : list (pos3 R) := map (towards listener) (a_positions a).
(** the source as seen from the listener *)
Definition seen (a : array) (listener pos : pos3 R) (planeWave : bool) : pos3 R :=
  let p := if planeWave then pos else P3 (px pos - px listener) (py pos - py listener) (pz pos - pz listener) in
  if a_2D a then P3 (px p) (py p) 0 else p.
(** the three directions that the code uses for a triplet *)
Definition legs (a : array) (listener : pos3 R) (t : triplet) (u v w : pos3 R) : Prop :=
  nth_error (directions a listener) (t_1 t) = Some u /\ nth_error (directions a listener) (t_2 t) = Some v
  /\ if a_2D a then w = towards listener (P3 0 0 1)
     else exists i3, t_3 t = Some i3 /\ nth_error (directions a listener) i3 = Some w.

(** coordinates of a vector in the directions of a triplet *)
Definition coordinates (a : array) (l : pos3 R) (t : triplet) (p : pos3 R) (g : R * R * R) : Prop :=
  exists u v w, legs a l t u v w /\ p = comb g u v w.

(** gains that are zero outside a triplet *)
Definition gain_of (a : array) (t : triplet) (g : R * R * R) (k : nat) : R :=
  if Nat.eqb k (t_1 t) then fst (fst g) else if Nat.eqb k (t_2 t) then snd (fst g)
  else match a_2D a, t_3 t with false, Some i => if Nat.eqb k i then snd g else 0 | _, _ => 0 end.
Definition represents (a : array) (t : triplet) (g : R * R * R) (gain : list R) : Prop :=
  length gain = length (a_positions a) /\ forall k, nth k gain 0 = gain_of a t g k.

(** [t], with coordinates [g], is a triplet for the source at [p]: it encloses the source or, if no
    triplet does, it has at most one negative coordinate and, among those triplets, the largest
    smallest coordinate *)
Definition selects (a : array) (l p : pos3 R) (t : triplet) (g : R * R * R) : Prop :=
  (inside_cone (a_2D a) g)
  \/ ((forall t' g', In t' (a_triplets a) -> coordinates a l t' p g' -> ~ inside_cone (a_2D a) g') /\ candidate g
      /\ forall t' g', In t' (a_triplets a) -> coordinates a l t' p g' -> candidate g' -> min3 g' <= min3 g).

(** no loudspeaker coincides with the listener, the indices of the triplets are valid and the
    directions of no triplet lie in a plane with the listener *)
Record placed (epsilon : R) (a : array) (l : pos3 R) : Prop := {
  pl_far : forall s, In s (a_positions a) -> epsilon <= distance l s;
  pl_up : a_2D a = true -> epsilon <= distance l (P3 0 0 1);
  pl_legs : forall t, In t (a_triplets a) -> exists u v w, legs a l t u v w /\ volume u v w <> 0 }.

(** loudspeakers of a triplet *)
Definition corner (a : array) (t : triplet) (k : nat) : Prop := k = t_1 t \/ k = t_2 t \/ (a_2D a = false /\ t_3 t = Some k).
(** the vector [p] is a sum of directions of the loudspeakers of [t] with nonnegative weights *)
Definition encloses (a : array) (l : pos3 R) (t : triplet) (p : pos3 R) (gain : list R) : Prop :=
  length gain = length (a_positions a) /\ (forall k, 0 <= nth k gain 0) /\ (forall k, nth k gain 0 <> 0 -> corner a t k)
  /\ total gain (directions a l) = p.
(** two triplets only share what the loudspeakers that belong to both of them enclose *)
Definition triangulation (a : array) (l : pos3 R) : Prop :=
  forall t t' p, In t (a_triplets a) -> In t' (a_triplets a) -> (exists gain, encloses a l t p gain) -> (exists gain, encloses a l t' p gain) ->
    exists gain, encloses a l t p gain /\ encloses a l t' p gain.
(** all loudspeakers and the listener in the horizontal plane *)
Definition planar (a : array) (l : pos3 R) : Prop := a_2D a = true /\ pz l = 0 /\ forall s, In s (a_positions a) -> pz s = 0.
