(** src/market_data/market_data.cpp, include/market_data/market_data.h and
    src/market_data/market_data_observer.cpp.

    The state is the MarketData singleton plus the objects it points to.
    - [mHeap]: the StockData objects ever allocated (a location is an index);
      shared ownership keeps an object readable as long as somebody holds it, so
      objects are never removed from the heap.
    - [mObj]: the observer objects ever allocated, with their ID, their
      shared_ptr use count and whether they are [Option]s (whose destructor calls
      removeObserver).  A weak_ptr to object [o] is expired when its count is 0.
    Simplifications: no threads here (see M_Singleton.v); update() of an observer
    does not call back into MarketData (every update() in /repo is empty). *)
From Coq Require Import List ZArith Bool String.
From Verif Require Import M_Num M_Outcome M_Dict M_Stock.
Import ListNotations.

Record Observer := mkObs { oID : string; oRefs : nat; oIsOption : bool }.

Section Market.
Context {T : Type} {num : Num T}.

Record Market := mkMarket {
  mR : T;                       (* market_data.h:56  r_ *)
  mMap : dict nat;              (* market_data.h:57  stockDataMap_ *)
  mWeak : list nat;             (* market_data.h:58  observers_ *)
  mHeap : list (StockData T);
  mObj : list Observer
}.

(** What a call did: outcome, state after the call, and the observers on which
    update() was called, in order. *)
Record Res (A : Type) := mkRes { res : outcome A; post : Market; calls : list nat }.
Arguments mkRes {A} _ _ _.
Arguments res {A} _.
Arguments post {A} _.
Arguments calls {A} _.

(** market_data.cpp:22 *)
Definition MarketData_ctor : Market := mkMarket (lit 5 2) [] [] [] [].

Definition with_weak (w : Market) (l : list nat) : Market :=
  mkMarket (mR w) (mMap w) l (mHeap w) (mObj w).
Definition with_heap (w : Market) (h : list (StockData T)) : Market :=
  mkMarket (mR w) (mMap w) (mWeak w) h (mObj w).
Definition with_obj (w : Market) (l : list Observer) : Market :=
  mkMarket (mR w) (mMap w) (mWeak w) (mHeap w) l.

(** weak_ptr::expired *)
Definition expired (w : Market) (o : nat) : bool :=
  match nth_error (mObj w) o with
  | Some ob => Nat.eqb (oRefs ob) 0
  | None => true
  end.

(** market_data.cpp:24-26 *)
Definition addObserver (o : nat) (w : Market) : Market := with_weak w (mWeak w ++ [o]).

(** market_data.cpp:28-33 *)
Definition removeObserver (w : Market) : Market :=
  with_weak w (filter (fun o => negb (expired w o)) (mWeak w)).

(** market_data.cpp:35-43: the observers whose update() is called *)
Definition notifyObserver (id : string) (w : Market) : list nat :=
  flat_map (fun o =>
    match nth_error (mObj w) o with
    | Some ob =>
        if Nat.eqb (oRefs ob) 0 then []            (* lock() failed *)
        else if String.eqb (oID ob) id then [o] else []
    | None => []
    end) (mWeak w).

(** market_data.cpp:46-52 *)
Definition notifyObservers (w : Market) : list nat :=
  flat_map (fun o =>
    match nth_error (mObj w) o with
    | Some ob => if Nat.eqb (oRefs ob) 0 then [] else [o]
    | None => []
    end) (mWeak w).

(** market_data.h:35-39.  The right operand of = is evaluated first (C++17), so a
    throwing StockData constructor leaves the map untouched. *)
Definition addStock (t : string) (S sigma : T) (c : option T) (w : Market) : Res unit :=
  match StockData_ctor S sigma c with
  | Ok d =>
      mkRes (Ok tt)
        (mkMarket (mR w) (dset t (List.length (mHeap w)) (mMap w)) (mWeak w) (mHeap w ++ [d]) (mObj w))
        []
  | Throw e => mkRes (Throw e) w []
  | UB => mkRes UB w []
  end.

(** market_data.cpp:54-80: the three update functions share this shape: find, set
    through the pointer, then notify; a setter that throws skips the notification. *)
Definition updateStock (set : StockData T -> StockData T * outcome unit)
    (t : string) (w : Market) : Res unit :=
  match dget t (mMap w) with
  | Some l =>
      match nth_error (mHeap w) l with
      | Some d =>
          let (d', r) := set d in
          let w' := with_heap w (lset l d' (mHeap w)) in
          match r with
          | Ok _ => mkRes (Ok tt) w' (notifyObserver t w')
          | Throw e => mkRes (Throw e) w' []
          | UB => mkRes UB w' []
          end
      | None => mkRes UB w []
      end
  | None => mkRes (Throw InvalidArgument) w []
  end.
(** market_data.cpp:54-62 *)
Definition updateStockPrice t (S : T) w := updateStock (setPrice S) t w.
(** market_data.cpp:64-71 *)
Definition updateStockSigma t (sigma : T) w := updateStock (setSigma sigma) t w.
(** market_data.cpp:73-80 *)
Definition updateStockCoupon t (c : option T) w := updateStock (setCoupon c) t w.

(** market_data.cpp:82-87: the shared pointer (location) of the ticker's data *)
Definition getStockData (t : string) (w : Market) : outcome nat :=
  match dget t (mMap w) with
  | Some l => Ok l
  | None => Throw InvalidArgument
  end.

(** dereferencing a shared_ptr<const StockData> *)
Definition deref (l : nat) (w : Market) : outcome (StockData T) :=
  match nth_error (mHeap w) l with Some d => Ok d | None => UB end.

(** market_data.cpp:89-91 *)
Definition getR (w : Market) : T := mR w.

(** market_data.cpp:93-96 *)
Definition setR (r : T) (w : Market) : Res unit :=
  let w' := mkMarket r (mMap w) (mWeak w) (mHeap w) (mObj w) in
  mkRes (Ok tt) w' (notifyObservers w').

(** Allocation of an observer object held by one shared_ptr. *)
Definition newObserver (id : string) (isOpt : bool) (w : Market) : Market :=
  with_obj w (mObj w ++ [mkObs id 1 isOpt]).

(** Copying a shared_ptr to a live observer. *)
Definition shareObserver (o : nat) (w : Market) : Market :=
  match nth_error (mObj w) o with
  | Some ob =>
      if Nat.eqb (oRefs ob) 0 then w
      else with_obj w (lset o (mkObs (oID ob) (Datatypes.S (oRefs ob)) (oIsOption ob)) (mObj w))
  | None => w
  end.

(** Destroying one shared_ptr to an observer.  When it was the last one the object
    dies; an Option's destructor (src/option/base_option.cpp:31-34) then calls
    removeObserver, at which point the weak references to it are expired. *)
Definition dropObserver (o : nat) (w : Market) : Market :=
  match nth_error (mObj w) o with
  | Some ob =>
      match oRefs ob with
      | O => w
      | Datatypes.S n =>
          let w' := with_obj w (lset o (mkObs (oID ob) n (oIsOption ob)) (mObj w)) in
          if Nat.eqb n 0 && oIsOption ob then removeObserver w' else w'
      end
  | None => w
  end.

(** Calls a client can make, as data. *)
Inductive op :=
| OAddStock (t : string) (S sigma : T) (c : option T)
| OPrice (t : string) (S : T)
| OSigma (t : string) (sigma : T)
| OCoupon (t : string) (c : option T)
| OSetR (r : T)
| ONewObserver (id : string) (isOpt : bool)
| OAddObserver (o : nat)
| ORemoveObserver
| OShare (o : nat)
| ODrop (o : nat).

Definition step (x : op) (w : Market) : Res unit :=
  match x with
  | OAddStock t p sigma c => addStock t p sigma c w
  | OPrice t p => updateStockPrice t p w
  | OSigma t s => updateStockSigma t s w
  | OCoupon t c => updateStockCoupon t c w
  | OSetR r => setR r w
  | ONewObserver id b => mkRes (Ok tt) (newObserver id b w) []
  | OAddObserver o =>   (* the argument is a shared_ptr, so the object is alive *)
      mkRes (Ok tt) (if expired w o then w else addObserver o w) []
  | ORemoveObserver => mkRes (Ok tt) (removeObserver w) []
  | OShare o => mkRes (Ok tt) (shareObserver o w) []
  | ODrop o => mkRes (Ok tt) (dropObserver o w) []
  end.

(** A history of calls; a call that throws does not stop the client. *)
Fixpoint run (h : list op) (w : Market) : Market :=
  match h with
  | [] => w
  | x :: h' => run h' (post (step x w))
  end.

End Market.
Arguments Market T : clear implicits.
Arguments Res T A : clear implicits.
Arguments mkRes {T A} _ _ _.
Arguments res {T A} _.
Arguments post {T A} _.
Arguments calls {T A} _.
Arguments op T : clear implicits.
