(** Model of rbbl::FIR (src/librbbl/fir.cpp/.hpp), the multichannel FIR filter with an upsampled impulse
    response.

    Samples are of an arbitrary type with arbitrary operations, so all results hold for floating-point
    arithmetic in the order of evaluation of the code.  The constants of the class are parameters
    (nBlockSamples = 64, maxnFIRblocks = 32, maxnFIRs = 64).  The numbers of filters and of samples are
    natural numbers (negative arguments of the setters not modelled), the upsampling ratio is an integer.
    The random number generators are an arbitrary sequence of draws.  The output pointers are
    assumed to be valid. *)
From Coq Require Import ZArith.
From Verif Require Import Base Memory.
Local Open Scope res_scope.

Section Fir.
  Context {R : Type} (add mul : R -> R -> R) (zero one minus_one : R).
  (** fir.hpp 50-60 *)
  Variables (nBlockSamples maxnFIRblocks maxnFIRs : nat).
  Definition maxnFIRsamples : nat := nBlockSamples * maxnFIRblocks.
  Definition nBufferSamples : nat := nBlockSamples * (maxnFIRblocks + 1).

  (** fir.hpp 97-121; the index lists of the tristate filters are truncated to their length *)
  Record fir := Fir {
    m_nFIRs : nat;
    m_nFIRsamples : nat;
    m_B : list (list R);
    m_nUpsample : Z;
    m_iBplus : list (list nat);
    m_iBminus : list (list nat);
    m_inBuffer : list R;
    m_iBuf : nat
  }.
  (** constructor, fir.cpp 22-28 *)
  Definition fir_new : fir := Fir 0 0 [] 1 [] [] (repeat zero nBufferSamples) 0.

  (** BasicMatrix::resize(): all elements are zero afterwards *)
  Definition zeros (rows cols : nat) : list (list R) := repeat (repeat zero cols) rows.
  (** setNumFIRs(), fir.hpp 64-68 *)
  Definition setNumFIRs (s : fir) (n : nat) : fir :=
    Fir n (m_nFIRsamples s) (zeros n (m_nFIRsamples s)) (m_nUpsample s) (m_iBplus s) (m_iBminus s) (m_inBuffer s) (m_iBuf s).
  (** setNumFIRsamples(), 69-73 *)
  Definition setNumFIRsamples (s : fir) (n : nat) : fir :=
    Fir (m_nFIRs s) n (zeros (m_nFIRs s) n) (m_nUpsample s) (m_iBplus s) (m_iBminus s) (m_inBuffer s) (m_iBuf s).
  (** setUpsampleRatio(), 74-77: the product is of type int; the returned value is 0 or -1 *)
  Definition setUpsampleRatio (s : fir) (n : Z) : fir * res Z :=
    let p := (n * Z.of_nat (m_nFIRsamples s))%Z in
    if ((p <? - 2 ^ 31) || (2 ^ 31 <=? p))%Z then (s, UB)
    else if (Z.of_nat maxnFIRsamples <? p)%Z then (s, Ok (-1)%Z)
    else (Fir (m_nFIRs s) (m_nFIRsamples s) (m_B s) n (m_iBplus s) (m_iBminus s) (m_inBuffer s) (m_iBuf s), Ok 0%Z).

  (** loadFIRs(), fir.cpp 30-38; a matrix is given by its number of columns and its rows *)
  Definition loadFIRs (s : fir) (cols : nat) (rows : list (list R)) : fir * res unit :=
    if negb (length rows =? m_nFIRs s) || negb (cols =? m_nFIRsamples s) then (s, Throw InvalidArgument)
    else (Fir (m_nFIRs s) (m_nFIRsamples s) rows (m_nUpsample s) (m_iBplus s) (m_iBminus s) (m_inBuffer s) (m_iBuf s), Ok tt).

  (** createWhiteTristateFIRs(), fir.cpp 41-63: [draw i j] tells whether the coefficient is nonzero
      and, if so, whether it is positive.  One row, from column [j] on; the three results are the
      coefficients and the two index lists. *)
  Fixpoint tristate_row (draw : nat -> option bool) (j n : nat) : list R * list nat * list nat :=
    match n with
    | O => ([], [], [])
    | S n' =>
        let '(b, p, m) := tristate_row draw (S j) n' in
        match draw j with
        | Some true => (one :: b, j :: p, m)
        | Some false => (minus_one :: b, p, j :: m)
        | None => (zero :: b, p, m)
        end
    end.
  (** the index lists have the sizes maxnFIRs and maxnFIRsamples *)
  Definition tristate (s : fir) (draw : nat -> nat -> option bool) : fir * res unit :=
    let rows := map (fun i => tristate_row (draw i) 0 (m_nFIRsamples s)) (seq 0 (m_nFIRs s)) in
    if (maxnFIRs <? m_nFIRs s)
       || existsb (fun r => (maxnFIRsamples <? length (snd (fst r))) || (maxnFIRsamples <? length (snd r))) rows
    then (s, UB)
    else (Fir (m_nFIRs s) (m_nFIRsamples s) (map (fun r => fst (fst r)) rows) (m_nUpsample s)
              (map (fun r => snd (fst r)) rows) (map (fun r => snd r) rows) (m_inBuffer s) (m_iBuf s), Ok tt).

  (** process(), fir.cpp 67-102 *)
  Definition elem {A} (l : list A) (k : nat) : res A :=
    match nth_error l k with Some x => Ok x | None => UB end.
  Definition elem_z {A} (l : list A) (k : Z) : res A := if (k <? 0)%Z then UB else elem l (Z.to_nat k).
  Fixpoint set_at (l : list R) (k : nat) (x : R) : res (list R) :=
    match l, k with
    | [], _ => UB
    | _ :: l', O => Ok (x :: l')
    | y :: l', S k' => r <- set_at l' k' x ;; Ok (y :: r)
    end.
  (** 71-74 *)
  Fixpoint set_input (buf : list R) (pos : nat) (x : list R) : res (list R) :=
    match x with
    | [] => Ok buf
    | x0 :: x' => buf' <- set_at buf pos x0 ;; set_input buf' (S pos) x'
    end.
  (** 85-93: the loop over the coefficients for one sample; [acc] holds out[k][i] *)
  Fixpoint taps (s : fir) (buf : list R) (n j : nat) (iBuf : Z) (acc : list R) : res (list R) :=
    match n with
    | O => Ok acc
    | S n' =>
        acc' <- map_res (fun k => a <- elem acc k ;;
                                  row <- elem (m_B s) k ;;
                                  b <- elem row j ;;
                                  x <- elem_z buf iBuf ;;
                                  Ok (add a (mul b x))) (seq 0 (m_nFIRs s)) ;;
        let iBuf1 := (iBuf - m_nUpsample s)%Z in
        let iBuf2 := if (iBuf1 <? 0)%Z then (iBuf1 + Z.of_nat nBufferSamples)%Z else iBuf1 in
        taps s buf n' (S j) iBuf2 acc'
    end.
  (** the result is a list of samples, each holding the values of all filters *)
  Definition process (s : fir) (x : list R) : fir * res (list (list R)) :=
    let r :=
      if negb (length x =? nBlockSamples) then UB
      else
        buf <- set_input (m_inBuffer s) (m_iBuf s) x ;;
        out <- map_res (fun i => taps s buf (m_nFIRsamples s) 0 (Z.of_nat (m_iBuf s + i)) (repeat zero (m_nFIRs s)))
                       (seq 0 nBlockSamples) ;;
        Ok (buf, out) in
    match r with
    | Ok (buf, out) =>
        let i1 := m_iBuf s + nBlockSamples in
        let i2 := if nBufferSamples <=? i1 then 0 else i1 in
        (Fir (m_nFIRs s) (m_nFIRsamples s) (m_B s) (m_nUpsample s) (m_iBplus s) (m_iBminus s) buf i2, Ok out)
    | Throw e => (s, Throw e)
    | UB => (s, UB)
    end.

  (** *** Calls *)
  Inductive op :=
  | SetNum (n : nat)
  | SetSamples (n : nat)
  | SetRatio (n : Z)
  | Load (cols : nat) (rows : list (list R))
  | Tristate (draw : nat -> nat -> option bool)
  | Process (x : list R).
  Inductive output := Nothing | Code (z : Z) | Signal (y : list (list R)).
  Definition ret {A} (f : A -> output) (r : res A) : res output := x <- r ;; Ok (f x).
  Definition step (s : fir) (o : op) : fir * res output :=
    match o with
    | SetNum n => (setNumFIRs s n, Ok Nothing)
    | SetSamples n => (setNumFIRsamples s n, Ok Nothing)
    | SetRatio n => let '(s', r) := setUpsampleRatio s n in (s', ret Code r)
    | Load cols rows => let '(s', r) := loadFIRs s cols rows in (s', ret (fun _ => Nothing) r)
    | Tristate draw => let '(s', r) := tristate s draw in (s', ret (fun _ => Nothing) r)
    | Process x => let '(s', r) := process s x in (s', ret Signal r)
    end.
  (** a program that goes on after exceptions *)
  Fixpoint perform (s : fir) (ops : list op) : fir * list (res output) :=
    match ops with
    | [] => (s, [])
    | o :: ops' =>
        let '(s1, r) := step s o in
        let '(s2, rs) := perform s1 ops' in
        (s2, r :: rs)
    end.
End Fir.
