(** Specification vocabulary for market data. *)
From Coq Require Import List ZArith Reals Bool String.
From Verif Require Import M_Num M_Outcome M_Stock M_Market S_Double.
Import ListNotations.

(** A valid stock, read as numbers. *)
Definition valid_stock (p sigma : b64) (c : option b64) : Prop :=
  (0 < val p)%R /\ (0 <= val sigma)%R /\
  match c with None => True | Some x => (0 <= val x <= 1)%R end.

Definition nan_free (p sigma : b64) (c : option b64) : Prop :=
  notnan p /\ notnan sigma /\ match c with None => True | Some x => notnan x end.

(** Numerical equality of optional doubles. *)
Definition same_coupon (c d : option b64) : Prop :=
  match c, d with
  | None, None => True
  | Some x, Some y => val x = val y
  | _, _ => False
  end.

Section Hist.
Context {T : Type} {num : Num T}.

(** The documented acceptance test, on plain values (true on NaN, as IEEE
    comparison makes it). *)
Definition accepts (p sigma : T) (c : option T) : bool :=
  negb (nleb p n0) && negb (nltb sigma n0) &&
  match c with None => true | Some x => negb (nltb x n0) && negb (nltb n1 x) end.

(** One stock seen in isolation: what a call does to the data of ticker [t].  An
    accepted addStock replaces the data; an update overwrites one field (also when the
    call is rejected). *)
Definition stock_step (t : string) (x : op T) (d : option (StockData T)) : option (StockData T) :=
  match x with
  | OAddStock t' p s c =>
      if String.eqb t t' then (if accepts p s c then Some (mkStock p s c) else d) else d
  | OPrice t' p =>
      if String.eqb t t'
      then match d with Some e => Some (mkStock p (sigma_ e) (c_ e)) | None => None end else d
  | OSigma t' s =>
      if String.eqb t t'
      then match d with Some e => Some (mkStock (S_ e) s (c_ e)) | None => None end else d
  | OCoupon t' c =>
      if String.eqb t t'
      then match d with Some e => Some (mkStock (S_ e) (sigma_ e) c) | None => None end else d
  | _ => d
  end.

Definition stock_after (t : string) (d : option (StockData T)) (h : list (op T)) :=
  fold_left (fun d x => stock_step t x d) h d.

(** The rate is the last one set. *)
Definition rate_after (r : T) (h : list (op T)) : T :=
  fold_left (fun r x => match x with OSetR r' => r' | _ => r end) h r.

(** Outcome of a call, from the data of the ticker it concerns. *)
Definition outcome_of (x : op T) (data : string -> option (StockData T)) : outcome unit :=
  let upd t := match stock_step t x (data t) with
               | None => Throw InvalidArgument
               | Some e => if accepts (S_ e) (sigma_ e) (c_ e) then Ok tt else Throw InvalidArgument
               end in
  match x with
  | OAddStock _ p s c => if accepts p s c then Ok tt else Throw InvalidArgument
  | OPrice t _ | OSigma t _ | OCoupon t _ => upd t
  | _ => Ok tt
  end.

(** Reading a ticker: getStockData followed by a dereference. *)
Definition read (t : string) (w : Market T) : outcome (StockData T) :=
  bind (getStockData t w) (fun l => deref l w).

Definition as_read (d : option (StockData T)) : outcome (StockData T) :=
  match d with Some e => Ok e | None => Throw InvalidArgument end.

(** Data seen through a handle on the object that held [t]: follows the calls on [t]
    up to the first accepted addStock of [t]. *)
Fixpoint handle_after (t : string) (d : StockData T) (h : list (op T)) : StockData T :=
  match h with
  | [] => d
  | x :: h' =>
      match x with
      | OAddStock t' p s c =>
          if String.eqb t t' && accepts p s c then d else handle_after t d h'
      | _ => match stock_step t x (Some d) with
             | Some d' => handle_after t d' h'
             | None => d
             end
      end
  end.

(** *** Observers *)
(** A registration is live when the object exists and is still referenced. *)
Definition live (w : Market T) (o : nat) : bool :=
  match nth_error (mObj w) o with Some ob => Nat.ltb 0 (oRefs ob) | None => false end.
Definition has_id (w : Market T) (id : string) (o : nat) : bool :=
  match nth_error (mObj w) o with Some ob => String.eqb (oID ob) id | None => false end.

End Hist.

(** *** Observer objects seen in isolation *)
Section ObsHist.
Context {T : Type}.

(** Number of observer objects created by a history. *)
Fixpoint created (h : list (op T)) : nat :=
  match h with
  | [] => 0
  | ONewObserver _ _ :: h' => S (created h')
  | _ :: h' => created h'
  end.

(** The object created as number [o]: its ID, reference count and class, computed from
    the calls that concern it.  [n] objects exist already. *)
Fixpoint object_after (o n : nat) (cur : option (string * nat * bool)) (h : list (op T))
    : option (string * nat * bool) :=
  match h with
  | [] => cur
  | ONewObserver id b :: h' =>
      object_after o (S n) (if Nat.eqb o n then Some (id, 1, b) else cur) h'
  | OShare o' :: h' =>
      object_after o n
        (if Nat.eqb o o' then
           match cur with
           | Some (id, S k, b) => Some (id, S (S k), b)
           | c => c
           end
         else cur) h'
  | ODrop o' :: h' =>
      object_after o n
        (if Nat.eqb o o' then
           match cur with
           | Some (id, S k, b) => Some (id, k, b)
           | c => c
           end
         else cur) h'
  | _ :: h' => object_after o n cur h'
  end.

Definition alive_after (h : list (op T)) (o : nat) : bool :=
  match object_after o 0 None h with Some (_, S _, _) => true | _ => false end.
Definition id_after (h : list (op T)) (id : string) (o : nat) : bool :=
  match object_after o 0 None h with Some (i, _, _) => String.eqb i id | _ => false end.
Definition is_option_after (h : list (op T)) (o : nat) : bool :=
  match object_after o 0 None h with Some (_, _, b) => b | _ => false end.

(** All registrations requested by a history, in order, of objects that existed then. *)
Fixpoint registrations (n : nat) (h : list (op T)) : list nat :=
  match h with
  | [] => []
  | ONewObserver _ _ :: h' => registrations (S n) h'
  | OAddObserver o :: h' => if Nat.ltb o n then o :: registrations n h' else registrations n h'
  | _ :: h' => registrations n h'
  end.
End ObsHist.
