(** Property C105: the profile of a thread shows how its scopes are nested. *)
From Verif Require Import Base Profiler_model ProfScope_model ProfScope_spec ProfScope_proofs.
Local Open Scope list_scope.

(** If the clock does not go back, a scope gives one record for itself and one for each scope within it, at any depth, in the order in which they
    end, with times that are nested as the scopes are. *)
Theorem C105_records_nest :
  forall clock th name body n, (forall i, (clock i <= clock (S i))%Z) -> automatic (Inner name body) ->
  exists k rs, run_scope clock th name body n = (k, rs) /\ n < k /\ trace th (to_us (clock n)) (to_us (clock (pred k))) [Inner name body] rs.
Proof. intros * Hm Ha. exact (scope_trace clock th Hm name body n Ha). Qed.
Print Assumptions C105_records_nest.

(** So that any two records follow each other or one is within the other, as the viewer of traces expects, and no duration is negative. *)
Theorem C105_laminar :
  forall clock th name body n, (forall i, (clock i <= clock (S i))%Z) -> automatic (Inner name body) ->
  forall r r', In r (snd (run_scope clock th name body n)) -> In r' (snd (run_scope clock th name body n)) ->
  laminar r r' /\ (0 <= r_end r - r_start r)%Z /\ r_thread r = th.
Proof.
  intros * Hm Ha r r' H H'. destruct (scope_trace clock th Hm name body n Ha) as (k & rs & E & _ & T). rewrite E in H, H'. cbn [snd] in H, H'.
  split; [exact (trace_laminar _ _ _ _ _ T r r' H H')|]. destruct (trace_within _ _ _ _ _ T r H) as (W & Et). split; [lia|exact Et].
Qed.
Print Assumptions C105_laminar.

(** With calls of Stop, and whatever the clock shows: one record for each call, and one for each timer that was not stopped when it ended. *)
Theorem C105_count :
  forall clock th name body n, length (snd (run_scope clock th name body n)) = expected (Inner name body).
Proof. intros. apply scope_count. Qed.
Print Assumptions C105_count.

(** A search with two expansions, the second with two inner scopes. *)
Definition b (n : nat) : bytes := [Ascii.ascii_of_nat n].
Definition demo_scope : list item := [Inner (b 66) []; Inner (b 67) [Inner (b 68) []; Inner (b 69) []]].
Example C105_demo :
  automatic (Inner (b 65) demo_scope) /\
  map (fun r => (r_name r, r_start r, r_end r)) (snd (run_scope (fun i => 1500 * Z.of_nat i)%Z 3 (b 65) demo_scope 0)) =
    [(b 66, 1, 3); (b 68, 6, 7); (b 69, 9, 10); (b 67, 4, 12); (b 65, 0, 13)]%Z.
Proof. split; [cbn; tauto|vm_compute; reflexivity]. Qed.

(** Stopped by hand a timer gives one record, stopped twice it gives two. *)
Example C105_stop :
  expected (Inner (b 65) [StopTimer]) = 1 /\ expected (Inner (b 65) [StopTimer; Inner (b 66) []; StopTimer]) = 3.
Proof. split; reflexivity. Qed.

(** The clock used is not steady on all platforms. If it is set back durations can be negative. *)
Example C105_clock_back : exists r, In r (snd (run_scope (fun i => 5000 - 2000 * Z.of_nat i)%Z 3 (b 65) [] 0)) /\ (r_end r - r_start r < 0)%Z.
Proof. eexists. split; [left; reflexivity|vm_compute; reflexivity]. Qed.
