(** What the wrappers of the signal flows are to do. *)
From Coq Require Import ZArith.
From Verif Require Import Base HostModel.

Section Spec.
  Context {A E F : Type}.
  Variables (exec : F -> list (list A) -> option (F * list (list A))) (ins outs period : nat).

  Definition is_block (n : nat) (x : list (list A)) : Prop := length x = n /\ Forall (fun c => length c = period) x.
  (** a flow produces blocks *)
  Definition flow_ok : Prop :=
    forall f x f' y, is_block ins x -> exec f x = Some (f', y) -> is_block outs y.
  (** consecutive blocks *)
  Fixpoint run_flow (f : F) (xs : list (list (list A))) : option (F * list (list (list A))) :=
    match xs with
    | [] => Some (f, [])
    | x :: xs' =>
        match exec f x with
        | None => None
        | Some (f1, y) =>
            match run_flow f1 xs' with
            | None => None
            | Some (f2, ys) => Some (f2, y :: ys)
            end
        end
    end.

  (** element of a Matlab matrix *)
  Definition element (m : mx) (row col : nat) : option E := nth_error (mx_data m) (col * mx_m m + row).
  Definition mx_ok (m : mx (E := E)) : Prop := length (mx_data m) = mx_m m * mx_n m.
  (** the samples of channel [ch] in block [b]; [pad] never matters *)
  Definition mx_block (to_internal : E -> A) (pad : E) (m : mx) (b : nat) : list (list A) :=
    map (fun ch => map (fun i => to_internal (match element m ch (b * period + i) with Some x => x | None => pad end))
                       (seq 0 period)) (seq 0 ins).

  (** element of a numpy array: bytes *)
  Definition nd_block (load : Z -> A) (a : ndarray) : list (list A) :=
    map (fun ch => map (fun i => load ((nd_base a + Z.of_nat ch * nth 0 (nd_strides a) 0
                                        + Z.of_nat i * nth 1 (nd_strides a) 0) mod 2 ^ 64)%Z)
                       (seq 0 period)) (seq 0 ins).
End Spec.
