(** Model of the singletons, /repo/planner/src/utils/singleton.h. Memory is sequentially consistent: each access to
    the pointer is one atomic step. Instances are numbered in the order of their construction. *)
From Verif Require Import Base.

(** What a thread is asked to do when it is idle. *)
Inductive call := CGet | CRelease.

(** Where a thread is in [SingletonThreadSafe::Get], 97-112, or [Release], 115-121. *)
Inductive pc :=
| Idle
| Check1                (* 100: read the pointer without the lock *)
| Lock                  (* 104: acquire the mutex *)
| Check2                (* 107: read the pointer *)
| New                   (* 108: run the constructor *)
| Assign (v : nat)      (* 108: store the pointer *)
| Unlock                (* 110: release the mutex *)
| Deref                 (* 111: read the pointer and return *)
| RLock                 (* 117 *)
| RCheck                (* 118 *)
| RReset                (* 119 *)
| RUnlock               (* 121 *)
| Crashed.              (* a null pointer was dereferenced *)

(** [built] counts constructions, [returned] lists the thread and instance of every [Get] that returned. *)
Record sstate := SState {
  ptr : option nat; owner : option nat; pcs : nat -> pc; built : nat; returned : list (nat * nat)
}.

Definition set_pc (f : nat -> pc) (t : nat) (p : pc) : nat -> pc := fun u => if Nat.eqb u t then p else f u.

(** Line 138: the pointer is null at first. *)
Definition s_init : sstate := SState None None (fun _ => Idle) 0 [].

(** One step of thread [t]; an idle thread starts call [c]; a thread that waits for the mutex does nothing. *)
Definition s_step (s : sstate) (tc : nat * call) : sstate :=
  let '(t, c) := tc in
  let goto p := SState (ptr s) (owner s) (set_pc (pcs s) t p) (built s) (returned s) in
  match pcs s t with
  | Idle => match c with CGet => goto Check1 | CRelease => goto RLock end
  | Check1 => match ptr s with None => goto Lock | Some _ => goto Deref end
  | Lock => match owner s with
            | None => SState (ptr s) (Some t) (set_pc (pcs s) t Check2) (built s) (returned s)
            | Some _ => s
            end
  | Check2 => match ptr s with None => goto New | Some _ => goto Unlock end
  | New => SState (ptr s) (owner s) (set_pc (pcs s) t (Assign (built s))) (S (built s)) (returned s)
  | Assign v => SState (Some v) (owner s) (set_pc (pcs s) t Unlock) (built s) (returned s)
  | Unlock => SState (ptr s) None (set_pc (pcs s) t Deref) (built s) (returned s)
  | Deref => match ptr s with
             | Some v => SState (ptr s) (owner s) (set_pc (pcs s) t Idle) (built s) (returned s ++ [(t, v)])
             | None => goto Crashed
             end
  | RLock => match owner s with
             | None => SState (ptr s) (Some t) (set_pc (pcs s) t RCheck) (built s) (returned s)
             | Some _ => s
             end
  | RCheck => match ptr s with None => goto RUnlock | Some _ => goto RReset end
  | RReset => SState None (owner s) (set_pc (pcs s) t RUnlock) (built s) (returned s)
  | RUnlock => SState (ptr s) None (set_pc (pcs s) t Idle) (built s) (returned s)
  | Crashed => s
  end.
Definition s_exec (s : sstate) (l : list (nat * call)) : sstate := fold_left s_step l s.

(** What the next step of a thread does to the pointer: the unlocked reads of lines 100 and 111, the locked reads of
    107 and 118, the writes of 108 and 119. *)
Inductive access := NoAccess | Reads | Writes.
Definition next_access (p : pc) : access :=
  match p with
  | Check1 | Check2 | Deref | RCheck => Reads
  | Assign _ | RReset => Writes
  | _ => NoAccess
  end.

(** ** [Singleton::Get] and [Init], 13-27, without a lock. *)
Inductive upc := UIdle | UCheck1 (* 15 *) | UCheck2 (* 24 *) | UNew (* 25 *) | UAssign (v : nat) (* 25 *) | UDeref (* 18 *).
Record ustate := UState { uptr : option nat; upcs : nat -> upc; ubuilt : nat; ureturned : list (nat * nat); udestroyed : list nat }.
Definition u_init : ustate := UState None (fun _ => UIdle) 0 [] [].
Definition u_step (s : ustate) (t : nat) : ustate :=
  let goto p := UState (uptr s) (fun u => if Nat.eqb u t then p else upcs s u) (ubuilt s) (ureturned s) (udestroyed s) in
  match upcs s t with
  | UIdle => goto UCheck1
  | UCheck1 => match uptr s with None => goto UCheck2 | Some _ => goto UDeref end
  | UCheck2 => match uptr s with None => goto UNew | Some _ => goto UDeref end
  | UNew => UState (uptr s) (fun u => if Nat.eqb u t then UAssign (ubuilt s) else upcs s u) (S (ubuilt s)) (ureturned s) (udestroyed s)
  | UAssign v =>   (* the assignment destroys the instance held before *)
    UState (Some v) (fun u => if Nat.eqb u t then UDeref else upcs s u) (ubuilt s) (ureturned s)
      (udestroyed s ++ match uptr s with Some w => [w] | None => [] end)
  | UDeref => match uptr s with
              | Some v => UState (uptr s) (fun u => if Nat.eqb u t then UIdle else upcs s u) (ubuilt s) (ureturned s ++ [(t, v)]) (udestroyed s)
              | None => s
              end
  end.
Definition u_exec (l : list nat) : ustate := fold_left u_step l u_init.
