(** src/market_data/market_data.cpp:8-17: MarketData::getInstance under concurrent calls.

    Threads are numbered by naturals (no bound on their number).  One step of a thread is
    one access to shared memory.  std::mutex is a lock word: lock() by a thread succeeds
    when the word is free and blocks otherwise.  Memory is sequentially consistent, which
    is what the C++ memory model gives for accesses made under one mutex.  Simplification:
    [new MarketData()] does not throw. *)
From Coq Require Import List Arith.
Import ListNotations.

(** Where a thread is inside getInstance. *)
Inductive pc :=
| Idle                 (* not in a call *)
| Lock                 (* market_data.cpp:12, about to lock *)
| Test                 (* :13, lock held, about to read instance_ *)
| New                  (* :14, about to run the constructor *)
| Assign (p : nat)     (* :14, about to store the pointer [p] *)
| Ret                  (* :16, about to copy instance_ *)
| Unlock (p : option nat). (* :17, destructor of lock; [p] is the value to be returned *)

Record sys := mkSys {
  mutex : option nat;          (* owner of mutex_ *)
  instance : option nat;       (* instance_: null or the number of a MarketData object *)
  ctors : nat;                 (* constructor runs so far; object number k is the k-th *)
  at_ : nat -> pc;             (* control state of each thread *)
  returned : list (nat * option nat)   (* calls that returned: thread, value; latest first *)
}.

Definition upd (f : nat -> pc) (i : nat) (v : pc) : nat -> pc :=
  fun j => if Nat.eqb j i then v else f j.

(** market_data.cpp:8-9 *)
Definition sys0 : sys := mkSys None None 0 (fun _ => Idle) [].

(** Thread [i] takes its next step; [None] when it is blocked on the mutex. *)
Definition tstep (i : nat) (s : sys) : option sys :=
  match at_ s i with
  | Idle => Some (mkSys (mutex s) (instance s) (ctors s) (upd (at_ s) i Lock) (returned s))
  | Lock =>
      match mutex s with
      | None => Some (mkSys (Some i) (instance s) (ctors s) (upd (at_ s) i Test) (returned s))
      | Some _ => None
      end
  | Test =>
      let next := match instance s with None => New | Some _ => Ret end in
      Some (mkSys (mutex s) (instance s) (ctors s) (upd (at_ s) i next) (returned s))
  | New => Some (mkSys (mutex s) (instance s) (S (ctors s)) (upd (at_ s) i (Assign (ctors s))) (returned s))
  | Assign p => Some (mkSys (mutex s) (Some p) (ctors s) (upd (at_ s) i Ret) (returned s))
  | Ret => Some (mkSys (mutex s) (instance s) (ctors s) (upd (at_ s) i (Unlock (instance s))) (returned s))
  | Unlock p => Some (mkSys None (instance s) (ctors s) (upd (at_ s) i Idle) ((i, p) :: returned s))
  end.

(** A schedule names the thread to move at each point; scheduling a blocked thread
    changes nothing. *)
Fixpoint sched (l : list nat) (s : sys) : sys :=
  match l with
  | [] => s
  | i :: l' => sched l' (match tstep i s with Some s' => s' | None => s end)
  end.
