(** Model of the profiler, /repo/planner/src/debug/profiler.cpp. Threads are interleaved; an insertion in the stream
    ([<<] with its [flush]) is one step. *)
From Coq Require Import Ascii String Decimal DecimalFacts.
From Verif Require Import Base.
Local Open Scope list_scope.

Definition bytes := list ascii.
Definition txt : string -> bytes := list_ascii_of_string.

(** profiler.h:18-22, [ProfilingResult]. Times are [long long]; the thread identifier prints as a number. *)
Record result := Result { r_name : bytes; r_start : Z; r_end : Z; r_thread : N }.

(** Decimal printing by [operator<<]. *)
Fixpoint show_uint (d : uint) : bytes :=
  match d with
  | Nil => []
  | D0 d => "0"%char :: show_uint d
  | D1 d => "1"%char :: show_uint d
  | D2 d => "2"%char :: show_uint d
  | D3 d => "3"%char :: show_uint d
  | D4 d => "4"%char :: show_uint d
  | D5 d => "5"%char :: show_uint d
  | D6 d => "6"%char :: show_uint d
  | D7 d => "7"%char :: show_uint d
  | D8 d => "8"%char :: show_uint d
  | D9 d => "9"%char :: show_uint d
  end.
Definition show_N (n : N) : bytes := show_uint (N.to_uint n).
Definition show_Z (z : Z) : bytes :=
  if (z <? 0)%Z then "-"%char :: show_N (Z.to_N (- z)) else show_N (Z.to_N z).

Definition newline : ascii := "010"%char.
Definition dquote : ascii := "034"%char.

(** profiler.cpp:39-49, the text of a record. [end - start] is assumed not to overflow. *)
Definition show_result (r : result) : bytes :=
  ","%char :: newline :: txt "{" ++
  (dquote :: txt "cat" ++ dquote :: txt ":" ++ dquote :: txt "function" ++ dquote :: txt ",") ++
  (dquote :: txt "dur" ++ dquote :: txt ":") ++ show_Z (r_end r - r_start r) ++ txt "," ++
  (dquote :: txt "name" ++ dquote :: txt ":" ++ [dquote]) ++ r_name r ++ (dquote :: txt ",") ++
  (dquote :: txt "ph" ++ dquote :: txt ":" ++ dquote :: txt "X" ++ dquote :: txt ",") ++
  (dquote :: txt "pid" ++ dquote :: txt ":0,") ++
  (dquote :: txt "tid" ++ dquote :: txt ":") ++ show_N (r_thread r) ++ txt "," ++
  (dquote :: txt "ts" ++ dquote :: txt ":") ++ show_Z (r_start r) ++ txt "}".

(** profiler.cpp:60 and 66. *)
Definition header : bytes :=
  txt "{" ++ dquote :: txt "otherData" ++ dquote :: txt ": {}," ++ dquote :: txt "traceEvents" ++ dquote :: txt ":[{}".
Definition footer : bytes := txt "]}".

(** Calls a thread can make. [CBegin ok]: [ok] tells whether the file can be opened. The destructor calls [EndSession]. *)
Inductive pcall := CWrite (r : result) | CBegin (ok : bool) | CEnd.

(** Where a thread is. *)
Inductive ppc :=
| PIdle
| PBuild (r : result)             (* 39-49, no lock *)
| PLock (c : pcall) (json : bytes) (* 10, 32, 51 *)
| PSession (c : pcall) (json : bytes) (* 11, 52, 72: read m_currentSession *)
| POut (json : bytes)             (* 53-54 *)
| PFooter (next : option bool)    (* 66-67; then 22 if called by BeginSession *)
| PClose (next : option bool)     (* 74 *)
| PDelete (next : option bool)    (* 75-76 *)
| POpen (ok : bool)               (* 22-24 *)
| PHeader                         (* 60-61 *)
| PUnlock.

(** [p_stream] is the content of the file that is open, [p_closed] the files closed so far. [p_order] and [p_issued]
    are not in the code: they record the calls in the order the mutex was acquired, and the calls made by each thread. *)
Record pstate := PState {
  p_lock : option nat; p_session : bool; p_stream : option bytes; p_closed : list bytes; p_pcs : nat -> ppc;
  p_order : list (nat * pcall); p_issued : nat -> list pcall
}.
Definition p_init : pstate := PState None false None [] (fun _ => PIdle) [] (fun _ => []).

Definition pset {A} (f : nat -> A) (t : nat) (v : A) : nat -> A := fun u => if Nat.eqb u t then v else f u.

(** One step of thread [t], which starts call [c] if it is idle. Writing to a stream that is not open is lost. *)
Definition p_step (s : pstate) (tc : nat * pcall) : pstate :=
  let '(t, c) := tc in
  let go session stream closed pc := PState (p_lock s) session stream closed (pset (p_pcs s) t pc) (p_order s) (p_issued s) in
  let write text := match p_stream s with Some f => Some (f ++ text) | None => None end in
  let after next := match next with Some ok => POpen ok | None => PUnlock end in
  match p_pcs s t with
  | PIdle =>
    PState (p_lock s) (p_session s) (p_stream s) (p_closed s)
      (pset (p_pcs s) t match c with CWrite r => PBuild r | _ => PLock c [] end) (p_order s) (pset (p_issued s) t (p_issued s t ++ [c]))
  | PBuild r => go (p_session s) (p_stream s) (p_closed s) (PLock (CWrite r) (show_result r))
  | PLock k json =>
    match p_lock s with
    | Some _ => s
    | None => PState (Some t) (p_session s) (p_stream s) (p_closed s) (pset (p_pcs s) t (PSession k json)) (p_order s ++ [(t, k)]) (p_issued s)
    end
  | PSession k json =>
    go (p_session s) (p_stream s) (p_closed s)
      match k, p_session s with
      | CWrite _, true => POut json
      | CWrite _, false => PUnlock
      | CBegin ok, true => PFooter (Some ok)
      | CBegin ok, false => POpen ok
      | CEnd, true => PFooter None
      | CEnd, false => PUnlock
      end
  | POut json => go (p_session s) (write json) (p_closed s) PUnlock
  | PFooter next => go (p_session s) (write footer) (p_closed s) (PClose next)
  | PClose next => go (p_session s) None (p_closed s ++ match p_stream s with Some f => [f] | None => [] end) (PDelete next)
  | PDelete next => go false (p_stream s) (p_closed s) (after next)
  | POpen ok => if ok then go true (Some []) (p_closed s) PHeader else go (p_session s) (p_stream s) (p_closed s) PUnlock
  | PHeader => go (p_session s) (write header) (p_closed s) PUnlock
  | PUnlock => PState None (p_session s) (p_stream s) (p_closed s) (pset (p_pcs s) t PIdle) (p_order s) (p_issued s)
  end.
Definition p_exec (l : list (nat * pcall)) : pstate := fold_left p_step l p_init.
