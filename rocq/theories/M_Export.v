(** examples/generate_sobol.cpp: the program that writes quasi-random points to a CSV file.

    Simplifications: the prompts and messages, the name of the file and the decimal
    formatting of the numbers are left out; a line of the file is the five numbers written
    to it.  Writing never fails. *)
From Coq Require Import List ZArith Bool.
From Verif Require Import M_Num M_Outcome M_Numeric.
Import ListNotations.

(** What an extraction [std::cin >> x] into an unsigned int finds when the stream is good: a
    number, or something that is not one or does not fit.  In the second case the stream
    fails and x is set to [stored] (0, or the greatest value if the number is too great). *)
Inductive Extraction := Number (v : Z) | NoNumber (stored : Z).
(** The input still to come, and whether the stream has failed.  At the end of the input and
    after a failure an extraction leaves x as it is. *)
Record Input := mkInput { iRest : list Extraction; iFailed : bool }.
Definition extract (x : Z) (i : Input) : Z * Input :=
  if iFailed i then (x, i)
  else match iRest i with
       | [] => (x, mkInput [] true)
       | Number v :: r => (v, mkInput r false)
       | NoNumber v :: r => (v, mkInput r true)
       end.

(** examples/generate_sobol.cpp:25-31: the do-while loop, from the current N and s.  [None]
    after [fuel] rounds. *)
Fixpoint ask (fuel : nat) (N s : Z) (i : Input) : option (Z * Z) :=
  match fuel with
  | O => None
  | S fuel' =>
      let (N, i) := extract N i in
      let (s, i) := extract s i in
      if ((N <=? 0) || (s <=? 0))%Z%bool then ask fuel' N s i else Some (N, s)
  end.

Section Export.
Context {T : Type} {num : Num T}.
Local Open Scope num_scope.

(** The three engines after construction and seeding: the numbers they will return, one
    after the other; sobol::max() and faure::max(). *)
Record Engines := mkEngines {
  eSobol : nat -> Z; eSobolMax : Z;
  eFaure : nat -> T; eFaureMax : T;
  eUniform : nat -> T
}.
(** A line of the file: sample, dimension, Sobol, Faure, uniform. *)
Definition Line : Type := Z * Z * T * T * T.

(** examples/generate_sobol.cpp:63-76: the loop over d for sample i; [u] numbers have been
    drawn from the Mersenne Twister.  d is an unsigned int.  Returns the lines and the
    number of draws. *)
Fixpoint write_point (fuel : nat) (E : Engines) (sp fp : list T) (i s d : Z) (u : nat) : option (outcome (list Line * nat)) :=
  if (d <=? s)%Z then
    match fuel with
    | O => None
    | S fuel' =>
        let k := ((d - 1) mod UINT_MOD)%Z in
        match vget sp k, vget fp k with
        | Ok x, Ok y =>
            let line := (i, d, x / nofZ (eSobolMax E), y / eFaureMax E, eUniform E u) in
            match write_point fuel' E sp fp i s ((d + 1) mod UINT_MOD)%Z (S u) with
            | Some (Ok (rest, u')) => Some (Ok (line :: rest, u'))
            | r => r
            end
        | _, _ => Some UB
        end
    end
  else Some (Ok ([], u)).

(** examples/generate_sobol.cpp:58-77: the loop over i; [q] numbers have been drawn from
    each quasi-random engine.  generate fills the s elements of the vectors, whose elements
    are double. *)
Fixpoint write_points (fuel : nat) (E : Engines) (N s i : Z) (q u : nat) : option (outcome (list Line)) :=
  if (i <=? N)%Z then
    match fuel with
    | O => None
    | S fuel' =>
        let n := Z.to_nat s in
        let sp := map (fun k => nofZ (eSobol E k)) (seq q n) in
        let fp := map (eFaure E) (seq q n) in
        match write_point fuel E sp fp i s 1 u with
        | Some (Ok (lines, u')) =>
            match write_points fuel' E N s ((i + 1) mod UINT_MOD)%Z (q + n) u' with
            | Some (Ok rest) => Some (Ok (lines ++ rest))
            | r => r
            end
        | Some (Throw e) => Some (Throw e)
        | Some UB => Some UB
        | None => None
        end
    end
  else Some (Ok []).

(** examples/generate_sobol.cpp:23-83.  createOutputDir may throw ([dirFails]); the file may
    not open ([opens]); the constructors of the engines throw for dimensions they do not
    support ([engines s = None]); an exception ends the program. *)
Inductive Ending := Written (lines : list Line) | NotOpened | Terminated | Undefined.
Definition export_main (fuel : nat) (inp : list Extraction) (dirFails opens : bool) (engines : Z -> option Engines) : option Ending :=
  match ask fuel 0 0 (mkInput inp false) with
  | None => None
  | Some (N, s) =>
      if dirFails then Some Terminated
      else if negb opens then Some NotOpened
      else match engines s with
           | None => Some Terminated
           | Some E =>
               match write_points fuel E N s 1 0 0 with
               | None => None
               | Some (Ok lines) => Some (Written lines)
               | Some (Throw _) => Some Terminated
               | Some UB => Some Undefined
               end
           end
  end.

End Export.
Arguments Engines T : clear implicits.
Arguments Line T : clear implicits.
Arguments Ending T : clear implicits.
