(** Proofs about the obstacle heuristic. *)
From Coq Require Import Reals Lra Psatz.
From Verif Require Import Base RealBase Grid_model Grid_spec Grid_proofs Frontier_model Frontier_spec Frontier_proofs AStarN2_spec Coords_model Coords_proofs Straight_spec ObstHeur_model ObstHeur_spec.
From Coq Require Import ZifyBool ZifyNat ZifyN Permutation.
Open Scope Z_scope.

Lemma cell_dec (a b : cell) : {a = b} + {a <> b}.
Proof. decide equality; apply Z.eq_dec. Qed.

Lemma zseq_In n i : In i (zseq n) <-> 0 <= i < n.
Proof.
  unfold zseq. rewrite in_map_iff. split.
  - intros (k & <- & H). apply in_seq in H. lia.
  - intros H. exists (Z.to_nat i). split; [lia|]. apply in_seq. lia.
Qed.

Lemma map_cells_In m n c : In c (map_cells m n) <-> inside m n c.
Proof.
  unfold map_cells. rewrite in_flat_map. split.
  - intros (r & Hr & H). apply in_map_iff in H as (k & <- & Hk). apply zseq_In in Hr, Hk. split; cbn; lia.
  - intros [H1 H2]. exists (row c). split; [now apply zseq_In|]. apply in_map_iff. exists (col c). split; [destruct c; reflexivity|now apply zseq_In].
Qed.

Lemma length_flat_const {A B} (f : A -> list B) k l : (forall x, length (f x) = k) -> length (flat_map f l) = (length l * k)%nat.
Proof. intros H. induction l; cbn; auto. rewrite app_length, H, IHl. reflexivity. Qed.
Lemma map_cells_length m n : length (map_cells m n) = (Z.to_nat m * Z.to_nat n)%nat.
Proof.
  unfold map_cells. rewrite (length_flat_const _ (Z.to_nat n)).
  - unfold zseq. now rewrite map_length, seq_length.
  - intros x. unfold zseq. now rewrite !map_length, seq_length.
Qed.

Lemma reset_writes {T} (g : grid T) (v : T) m n : gwf g -> rows g = m -> columns g = n ->
  exists g', grid_writes g (map (fun p => (p, v)) (map_cells m n)) = Ok g' /\ gwf g' /\ rows g' = m /\ columns g' = n /\ forall c, inside m n c -> grid_get g' c = Ok v.
Proof.
  intros W Em En. assert (F : forall c, In c (map_cells m n) -> inside m n c) by (intros c; apply map_cells_In).
  assert (G : forall l g, gwf g -> rows g = m -> columns g = n -> (forall c, In c l -> inside m n c) ->
    exists g', grid_writes g (map (fun p => (p, v)) l) = Ok g' /\ gwf g' /\ rows g' = m /\ columns g' = n /\
      (forall c, inside m n c -> In c l \/ grid_get g c = Ok v -> grid_get g' c = Ok v)).
  { clear. induction l as [|p l IH]; intros g W Em En F; cbn [map grid_writes].
    - exists g. repeat (split; auto). intros c Hc [[]|H]; auto.
    - destruct (grid_set_spec g p v W) as (g1 & -> & W1 & R1 & C1 & G1). { rewrite Em, En. apply F. now left. }
      cbn [bind]. destruct (IH g1 W1) as (g' & E & W' & R' & C' & G'); [congruence|congruence|intros; apply F; now right|].
      exists g'. repeat (split; auto). intros c Hc H. apply G'; auto. rewrite G1 by now rewrite Em, En.
      destruct (cell_eqb p c) eqn:E1; auto. destruct H as [[->|H]|H]; auto. rewrite cell_eqb_refl in E1. discriminate. }
  destruct (G _ g W Em En F) as (g' & E & W' & R' & C' & H). exists g'. repeat (split; auto). intros c Hc. apply H; auto. left. now apply map_cells_In.
Qed.

Lemma sqrt2_bounds : (1.4 < sqrt 2 < 1.5)%R.
Proof. pose proof (sqrt_sqrt 2 ltac:(lra)). pose proof (sqrt_pos 2). split; nra. Qed.

(** ** Distances on a map without obstacles *)
Definition od_straight (p q : cell) : Z := let a := Z.abs (row p - row q) in let b := Z.abs (col p - col q) in Z.max a b - Z.min a b.
Definition od_diagonal (p q : cell) : Z := let a := Z.abs (row p - row q) in let b := Z.abs (col p - col q) in Z.min a b.
Lemma od_eq p q : octile_distance p q = (IZR (od_straight p q) + sqrt 2 * IZR (od_diagonal p q))%R.
Proof. reflexivity. Qed.
Lemma od_shift s c k du dv : od_straight s c - od_straight s k = du -> od_diagonal s c - od_diagonal s k = dv ->
  octile_distance s c = (octile_distance s k + IZR du + sqrt 2 * IZR dv)%R.
Proof. intros <- <-. rewrite !od_eq, !minus_IZR. ring. Qed.

Definition straight_step (c k : cell) : bool := (row c =? row k) || (col c =? col k).

(** The changes of the absolute differences. *)
Lemma abs_change s c k : touches c k ->
  exists A B dA dB, 0 <= A /\ 0 <= B /\ 0 <= A + dA /\ 0 <= B + dB /\ Z.abs (row s - row k) = A /\ Z.abs (col s - col k) = B /\ Z.abs (row s - row c) = A + dA /\ Z.abs (col s - col c) = B + dB /\
  if straight_step c k then (dA = 0 /\ (dB = 1 \/ dB = -1)) \/ (dB = 0 /\ (dA = 1 \/ dA = -1)) else (dA = 1 \/ dA = -1) /\ (dB = 1 \/ dB = -1).
Proof.
  unfold touches, straight_step. intros T. exists (Z.abs (row s - row k)), (Z.abs (col s - col k)), (Z.abs (row s - row c) - Z.abs (row s - row k)), (Z.abs (col s - col c) - Z.abs (col s - col k)).
  do 4 (split; [lia|]). do 2 (split; [reflexivity|]). do 2 (split; [lia|]).
  assert (H1 : row c = row k \/ row c = row k + 1 \/ row c = row k - 1) by lia. assert (H2 : col c = col k \/ col c = col k + 1 \/ col c = col k - 1) by lia.
  destruct (Z.eqb_spec (row c) (row k)) as [E1|E1]; destruct (Z.eqb_spec (col c) (col k)) as [E2|E2]; cbn [orb].
  - exfalso. lia.
  - left. split; [lia|]. clear - H2 E2. lia.
  - right. split; [lia|]. clear - H1 E1. lia.
  - split; [clear - H1 E1|clear - H2 E2]; lia.
Qed.

(** How the distance can change with a step. *)
Lemma od_change s c k : touches c k ->
  let du := od_straight s c - od_straight s k in let dv := od_diagonal s c - od_diagonal s k in
  if straight_step c k then (du = 1 /\ dv = 0) \/ (du = -1 /\ dv = 0) \/ (du = 1 /\ dv = -1) \/ (du = -1 /\ dv = 1)
  else (du = 0 /\ dv = 1) \/ (du = 0 /\ dv = -1) \/ (du = 2 /\ dv = -1) \/ (du = -2 /\ dv = 1) \/ (du = 0 /\ dv = 0).
Proof.
  intros T. unfold od_straight, od_diagonal. cbv zeta. destruct (abs_change s c k T) as (A & B & dA & dB & P1 & P2 & P3 & P4 & -> & -> & -> & -> & H). clear T. destruct (straight_step c k).
  - destruct H as [(-> & [-> | ->])|(-> & [-> | ->])]; lia.
  - destruct H as ([-> | ->] & [-> | ->]); lia.
Qed.

Lemma od_step s c k : touches c k -> (octile_distance s k <= octile_distance s c + octile c k)%R.
Proof.
  intros T. pose proof (od_change s c k T) as H. cbv zeta in H. pose proof sqrt2_bounds. unfold octile, straight_step in *.
  destruct ((row c =? row k) || (col c =? col k)).
  - destruct H as [(E1 & E2)|[(E1 & E2)|[(E1 & E2)|(E1 & E2)]]]; rewrite (od_shift s c k _ _ E1 E2); lra.
  - destruct H as [(E1 & E2)|[(E1 & E2)|[(E1 & E2)|[(E1 & E2)|(E1 & E2)]]]]; rewrite (od_shift s c k _ _ E1 E2); lra.
Qed.

(** The step back towards [s]. *)
Definition back (s k : cell) : cell := Cell (row k - Z.sgn (row k - row s)) (col k - Z.sgn (col k - col s)).
Lemma back_touches s k : k <> s -> touches (back s k) k.
Proof. intros N. unfold touches, back. cbn. destruct (Z.eq_dec (row k) (row s)); [|lia]. destruct (Z.eq_dec (col k) (col s)); [|lia]. exfalso. apply N. destruct k, s; cbn in *; congruence. Qed.
Lemma back_inside m n s k : inside m n s -> inside m n k -> inside m n (back s k).
Proof. unfold inside, back. cbn. lia. Qed.
Lemma back_cheb s k : k <> s -> Z.max (Z.abs (row s - row (back s k))) (Z.abs (col s - col (back s k))) < Z.max (Z.abs (row s - row k)) (Z.abs (col s - col k)).
Proof. intros N. unfold back. cbn. destruct (Z.eq_dec (row k) (row s)); [|lia]. destruct (Z.eq_dec (col k) (col s)); [|lia]. exfalso. apply N. destruct k, s; cbn in *; congruence. Qed.

(** It is the best one, and only the best one is as near. *)
Lemma back_best s c k : k <> s -> touches c k ->
  (octile_distance s (back s k) < octile_distance s k)%R /\
  (octile_distance s (back s k) <= octile_distance s c)%R /\ (octile_distance s (back s k) = octile_distance s c -> octile_distance s k = octile_distance s c + octile c k)%R.
Proof.
  intros N T. pose proof sqrt2_bounds. unfold octile. fold (straight_step c k).
  assert (Cs : (row k = row s \/ col k = col s) \/ (row k <> row s /\ col k <> col s)) by lia. destruct Cs as [Cs|Cs].
  - assert (E1 : od_straight s (back s k) - od_straight s k = -1).
    { unfold od_straight, back. cbn. destruct (Z.eq_dec (row k) (row s)), (Z.eq_dec (col k) (col s)); try lia. exfalso. apply N. destruct k, s; cbn in *; congruence. }
    assert (E2 : od_diagonal s (back s k) - od_diagonal s k = 0) by (unfold od_diagonal, back; cbn; lia).
    rewrite (od_shift _ _ _ _ _ E1 E2). split; [lra|].
    assert (G : forall du dv, od_straight s c - od_straight s k = du -> od_diagonal s c - od_diagonal s k = dv ->
      if straight_step c k then (du = 1 /\ dv = 0) \/ (du = -1 /\ dv = 0) \/ (du = -1 /\ dv = 1) else (du = 0 /\ dv = 1) \/ (du = -2 /\ dv = 1) \/ (du = 0 /\ dv = 0)).
    { intros du dv <- <-. unfold od_straight, od_diagonal. cbv zeta. destruct (abs_change s c k T) as (A & B & dA & dB & P1 & P2 & P3 & P4 & Q1 & Q2 & -> & -> & H').
      assert (Z0 : A = 0 \/ B = 0) by lia. rewrite Q1, Q2. clear - Z0 H' P1 P2 P3 P4. destruct (straight_step c k).
      - destruct H' as [(-> & [-> | ->])|(-> & [-> | ->])]; destruct Z0 as [-> | ->]; lia.
      - destruct H' as ([-> | ->] & [-> | ->]); destruct Z0 as [-> | ->]; lia. }
    specialize (G _ _ eq_refl eq_refl). destruct (straight_step c k).
    + destruct G as [(F1 & F2)|[(F1 & F2)|(F1 & F2)]]; rewrite (od_shift s c k _ _ F1 F2); lra.
    + destruct G as [(F1 & F2)|[(F1 & F2)|(F1 & F2)]]; rewrite (od_shift s c k _ _ F1 F2); lra.
  - assert (E1 : od_straight s (back s k) - od_straight s k = 0) by (unfold od_straight, back; cbn; lia).
    assert (E2 : od_diagonal s (back s k) - od_diagonal s k = -1) by (unfold od_diagonal, back; cbn; lia).
    rewrite (od_shift _ _ _ _ _ E1 E2). split; [lra|]. pose proof (od_change s c k T) as G. cbv zeta in G. destruct (straight_step c k).
    + destruct G as [(F1 & F2)|[(F1 & F2)|[(F1 & F2)|(F1 & F2)]]]; rewrite (od_shift s c k _ _ F1 F2); lra.
    + destruct G as [(F1 & F2)|[(F1 & F2)|[(F1 & F2)|[(F1 & F2)|(F1 & F2)]]]]; rewrite (od_shift s c k _ _ F1 F2); lra.
Qed.

Lemma od_refl s : octile_distance s s = 0%R.
Proof. unfold octile_distance. rewrite !Z.sub_diag. cbn. ring. Qed.

Lemma od_walk m n o s l : forall p q, walk m n o p l q -> (octile_distance s q <= octile_distance s p + walk_cost octile p l)%R.
Proof.
  induction l as [|k l IH]; intros p q; cbn; [intros ->; lra|]. intros [(_ & T & _) W]. pose proof (od_step s p k T). specialize (IH k q W). lra.
Qed.

Section Update.
  Context {C : Type}.
  Variables (ltb : C -> C -> bool) (add : C -> C -> C) (zero one diag : C) (val : C -> R).
  Hypothesis EX : exact ltb add zero one diag val.
  Variables (m n : Z) (occ : cell -> res bool) (o : cell -> bool) (start : cell).
  Hypothesis OCC : answers m n occ o.

  Notation vcmp := (e_cmp ltb).
  Notation veq := (@e_eq C).
  Notation step := (grid_step m n o).

  Lemma ltb_false a b : ltb a b = false <-> (val b <= val a)%R.
  Proof.
    pose proof (ex_ltb _ _ _ _ _ _ EX a b) as H. destruct (ltb a b); split; intros E; try discriminate.
    - exfalso. assert (val a < val b)%R by (apply H; auto). lra.
    - destruct (Rle_dec (val b) (val a)); auto. exfalso. assert (false = true) by (apply H; lra). discriminate.
    - auto.
  Qed.

  Lemma cmp_swo : strict_weak_order _ vcmp.
  Proof.
    split.
    - intros [c [x|]]; cbn; auto. apply ltb_false. lra.
    - intros [c [x|]] [c' [y|]] [c'' [z|]]; cbn; auto; try discriminate. rewrite !(ex_ltb _ _ _ _ _ _ EX). lra.
    - intros [c [x|]] [c' [y|]] [c'' [z|]]; cbn; auto; try discriminate. rewrite !ltb_false. lra.
  Qed.
  Lemma eq_equiv : equivalence _ veq.
  Proof.
    split; unfold e_eq.
    - intros x. apply cell_eqb_refl.
    - intros x y H. apply cell_eqb_eq in H. rewrite H. apply cell_eqb_refl.
    - intros x y z H1 H2. apply cell_eqb_eq in H1. now rewrite H1.
  Qed.

  Lemma skipped_spec c k : inside m n c -> inside m n k -> touches c k -> exists b, oh_skipped occ c k = Ok b /\ (b = false <-> step c k).
  Proof.
    intros Hc Hk T. unfold oh_skipped. rewrite (OCC k Hk). cbn [bind]. assert (D : is_diagonal_to k c = true <-> row c <> row k /\ col c <> col k) by (unfold is_diagonal_to; lia).
    destruct (o k) eqn:Ek. { exists true. split; auto. split; [discriminate|]. intros (_ & _ & E & _). congruence. }
    destruct (is_diagonal_to k c) eqn:Ed.
    - assert (Hd : row c <> row k /\ col c <> col k) by now apply D. destruct Hc, Hk. rewrite (OCC (Cell (row k) (col c))) by (split; cbn; lia). cbn [bind].
      destruct (o (Cell (row k) (col c))) eqn:E1.
      + rewrite (OCC (Cell (row c) (col k))) by (split; cbn; lia). eexists. split; auto. split.
        * intros E. split; [split; auto|]. split; auto. split; auto. intros (_ & _ & _ & E2). congruence.
        * intros (_ & _ & _ & N). destruct (o (Cell (row c) (col k))) eqn:E2; auto. exfalso. apply N. tauto.
      + eexists. split; eauto. split; auto. intros _. split; [split; auto|]. split; auto. split; auto. intros (_ & _ & E2 & _). congruence.
    - eexists. split; eauto. split; auto. intros _. split; auto. split; auto. split; auto. intros (A & B & _). assert (false = true) by (apply D; auto). discriminate.
  Qed.

  (** ** The invariant *)

  (** The cell [c] is stored with the cost [x], the length of a walk. *)
  Definition stored (st : ostate C) (c : cell) (x : C) : Prop :=
    grid_get (o_cost st) c = Ok (Some x) /\ exists l, walk m n o start l c /\ val x = walk_cost octile start l.

  Definition free : Prop := forall c, inside m n c -> o c = false.

  Record inv (E : list cell) (L : R) (cur : cell) (todo : list cell) (fr : frontier elem) (st : ostate C) : Prop := {
    i_fr : finv vcmp veq fr;
    i_wc : gwf (o_cost st); i_rc : rows (o_cost st) = m; i_cc : columns (o_cost st) = n;
    i_we : gwf (o_explored st); i_re : rows (o_explored st) = m; i_ce : columns (o_explored st) = n;
    i_E : NoDup E; i_Ein : forall c, In c E -> inside m n c;
    i_expl : forall c, inside m n c -> exists b, grid_get (o_explored st) c = Ok b /\ (b = true <-> In c E);
    (* frontier elements *)
    i_F : forall c v, In (c, v) (vec fr) -> inside m n c /\ ~ In c E /\ exists x, v = Some x /\ stored st c x /\ (L <= val x <= L + sqrt 2)%R;
    (* explored cells *)
    i_EX : forall c, In c E -> exists x, stored st c x /\ (val x <= L)%R;
    (* nothing else is stored *)
    i_none : forall c, inside m n c -> ~ In c E -> (forall v, ~ In (c, v) (vec fr)) -> grid_get (o_cost st) c = Ok None;
    (* steps from explored cells *)
    i_step : forall c k, In c E -> step c k -> ~ (c = cur /\ In k todo) ->
      (In k E \/ exists v, In (k, v) (vec fr)) /\ forall x y, stored st c x -> stored st k y -> (val y <= val x + sqrt 2)%R;
    (* the start is reached *)
    i_start : In start E \/ exists v, In (start, v) (vec fr);
    i_szero : stored st start zero;
    (* without obstacles, the stored costs are shortest *)
    i_exact : free -> forall a z, inside m n a -> stored st a z -> val z = octile_distance start a
  }.

  Lemma stored_fun st c x y : stored st c x -> stored st c y -> x = y.
  Proof. intros [E1 _] [E2 _]. congruence. Qed.

  Lemma walk_snoc p l c k : walk m n o p l c -> step c k -> walk m n o p (l ++ [k]) k.
  Proof. revert p. induction l as [|a l IH]; intros p; cbn; [now intros -> |]. intros [H1 H2] H3. auto. Qed.
  Lemma cost_snoc p l c k : walk m n o p l c -> walk_cost octile p (l ++ [k]) = (walk_cost octile p l + octile c k)%R.
  Proof. revert p. induction l as [|a l IH]; intros p; cbn; [intros ->; ring|]. intros [H1 H2]. rewrite IH by auto. ring. Qed.

  (** Without obstacles, all nearer cells are explored. *)
  Lemma nearer_explored E L cur todo fr st x : inv E L cur todo fr st -> free -> inside m n start -> stored st cur x -> inside m n cur -> val x = L ->
    forall q, inside m n q -> (octile_distance start q < L)%R -> In q E.
  Proof.
    intros [] Fr Hs Hx Hcur HL. assert (G : forall d q, (Z.to_nat (Z.max (Z.abs (row start - row q)) (Z.abs (col start - col q))) < d)%nat -> inside m n q -> (octile_distance start q < L)%R -> In q E).
    { induction d as [|d IH]; intros q Hd Hq Lq; [lia|]. destruct (cell_dec q start) as [->|N].
      - rewrite od_refl in Lq. destruct i_start0 as [J|[v J]]; auto. exfalso. destruct (i_F0 _ _ J) as (_ & _ & z & _ & Sz & B). rewrite (i_exact0 Fr _ _ Hs Sz), od_refl in B. lra.
      - destruct (back_best start (back start q) q N (back_touches start q N)) as (B1 & _). pose proof (back_cheb start q N). pose proof (back_inside m n start q Hs Hq) as Hb.
        assert (IB : In (back start q) E) by (apply IH; auto; [lia|lra]).
        destruct (i_step0 (back start q) q IB) as [[J|[v J]] _].
        + split; auto. split; [now apply back_touches|]. split; [now apply Fr|]. intros (_ & _ & K & _). rewrite Fr in K; [discriminate|]. destruct Hq, Hb. split; cbn in *; lia.
        + intros [Eb _]. rewrite Eb in B1. rewrite (i_exact0 Fr _ _ Hcur Hx) in HL. lra.
        + auto.
        + exfalso. destruct (i_F0 _ _ J) as (_ & _ & z & _ & Sz & B). rewrite (i_exact0 Fr _ _ Hq Sz) in B. lra. }
    intros q. eapply G. apply Nat.lt_succ_diag_r.
  Qed.

  (** The element found in the frontier. *)
  Lemma find_elem fr k z r : finv vcmp veq fr -> f_find veq (k, z) fr = r ->
    match r with
    | Some (c, v) => c = k /\ In (k, v) (vec fr)
    | None => forall v, ~ In (k, v) (vec fr)
    end.
  Proof.
    intros H <-. unfold f_find. rewrite (set_find_vec vcmp veq eq_equiv) by auto. destruct (find _ _) as [[c v]|] eqn:E.
    - apply find_some in E as [I E]. unfold e_eq in E. cbn [fst] in E. apply cell_eqb_eq in E. subst c. auto.
    - intros v I. apply (find_none _ _ E) in I. unfold e_eq in I. cbn in I. rewrite cell_eqb_refl in I. discriminate.
  Qed.

  Hypothesis Hs : inside m n start.

  Lemma visit_inv E L c k todo fr st x : inv E L c (k :: todo) fr st -> In c E -> touches c k -> inside m n k -> ~ In k todo ->
    stored st c x -> val x = L ->
    exists fr' st', oh_visit ltb add zero one diag occ c (fr, st) k = Ok (fr', st') /\ inv E L c todo fr' st' /\ stored st' c x.
  Proof.
    intros I Hc T Hk Nt Hx HL. pose proof I as []. destruct (skipped_spec c k (i_Ein0 c Hc) Hk T) as (b & Eb & Hb). unfold oh_visit. rewrite Eb. cbn [bind].
    destruct b.
    { exists fr, st. split; auto. split; auto. split; auto. intros c' k' Hc' S N. apply i_step0; auto. intros [-> [<-|H]]; [|now apply N]. apply Hb in S. discriminate. }
    assert (S : step c k) by now apply Hb. destruct Hx as [Ec (l & Wl & Cl)]. rewrite Ec. cbn [bind option_map].
    set (t := if _ : bool then one else diag). assert (Vt : val t = octile c k).
    { unfold t, octile. destruct (_ || _); [apply (ex_one _ _ _ _ _ _ EX)|apply (ex_diag _ _ _ _ _ _ EX)]. }
    pose proof sqrt2_bounds as S2. assert (Ot : (1 <= octile c k <= sqrt 2)%R) by (unfold octile; destruct (_ || _); lra).
    destruct (i_expl0 k Hk) as (bk & Ek & Hbk).
    destruct (f_find veq (k, Some zero) fr) as [[k' v]|] eqn:Ef; pose proof (find_elem fr k _ _ i_fr0 Ef) as Fd; cbn in Fd; rewrite Ek; cbn [bind].
    - destruct Fd as [-> Iv]. destruct (i_F0 k v Iv) as (_ & NE & y & -> & [Ey Hy] & By). rewrite Ey. cbn [bind]. cbn [snd v_gtb].
      assert (ltb y y = false) as -> by (apply ltb_false; lra). exists fr, st. split; auto. split; [|split; [auto|exists l; auto]].
      split; auto. intros c' k' Hc' S' N. destruct (in_dec cell_dec k' (k :: todo)) as [Ik|Nk]; [|apply i_step0; auto; intros [_ H]; now apply Nk].
      destruct (cell_eqb c' c) eqn:Ecc.
      + apply cell_eqb_eq in Ecc as ->. destruct Ik as [<-|Ik]; [|exfalso; now apply N]. split; [right; eauto|]. intros x' y' Sx' [Sy' _]. assert (y' = y) as -> by congruence.
        assert (x' = x) as -> by (apply (stored_fun st c); [auto|split; [auto|exists l; auto]]). lra.
      + apply i_step0; auto. intros [-> _]. rewrite cell_eqb_refl in Ecc. discriminate.
    - destruct bk.
      + assert (IE : In k E) by now apply Hbk. exists fr, st. split; auto. split; [|split; [auto|exists l; auto]]. split; auto. intros c' k' Hc' S' N.
        destruct (in_dec cell_dec k' (k :: todo)) as [Ik|Nk]; [|apply i_step0; auto; intros [_ H]; now apply Nk].
        destruct (cell_eqb c' c) eqn:Ecc.
        * apply cell_eqb_eq in Ecc as ->. destruct Ik as [<-|Ik]; [|exfalso; now apply N]. split; [now left|]. intros x' y' Sx' Sy'.
          assert (x' = x) as -> by (apply (stored_fun st c); [auto|split; [auto|exists l; auto]]). destruct (i_EX0 k IE) as (z & Sz & Bz). assert (y' = z) as -> by (eapply stored_fun; eauto). lra.
        * apply i_step0; auto. intros [-> _]. rewrite cell_eqb_refl in Ecc. discriminate.
      + assert (NE : ~ In k E) by (rewrite <- Hbk; discriminate). set (v := add t x). assert (Vv : val v = (val x + octile c k)%R) by (unfold v; rewrite (ex_add _ _ _ _ _ _ EX), Vt; ring).
        pose proof (f_push_spec vcmp veq cmp_swo eq_equiv (k, Some v) fr i_fr0) as Ps.
        assert (Fn : find (veq (k, Some v)) (vec fr) = None).
        { destruct (find _ _) as [[a b]|] eqn:Fe; auto. exfalso. apply find_some in Fe as [Ia Ea]. unfold e_eq in Ea. cbn [fst] in Ea. apply cell_eqb_eq in Ea. subst a. now apply (Fd b). }
        rewrite Fn in Ps. destruct Ps as (fr' & -> & Fi' & Fv'). cbn [bind].
        destruct (grid_set_spec (o_cost st) k (Some v) i_wc0) as (g & -> & Wg & Rg & Cg & Gg). { now rewrite i_rc0, i_cc0. }
        cbn [bind]. rewrite i_rc0, i_cc0 in Gg. exists fr', (OState g (o_explored st)). split; auto.
        assert (In' : forall a b, In (a, b) (vec fr') <-> (a, b) = (k, Some v) \/ In (a, b) (vec fr)).
        { intros a b. rewrite Fv'. pose proof (s_insert_perm vcmp (k, Some v) (vec fr)) as P. split; intros J.
          - apply (Permutation_in _ P) in J. destruct J as [<-|J]; auto.
          - apply (Permutation_in _ (Permutation_sym P)). destruct J as [->|J]; [now left|now right]. }
        assert (St : forall a z, a <> k -> inside m n a -> stored (OState g (o_explored st)) a z <-> stored st a z).
        { intros a z Na Ha. unfold stored. cbn [o_cost]. rewrite Gg by auto. destruct (cell_eqb k a) eqn:Ea; [apply cell_eqb_eq in Ea; congruence|reflexivity]. }
        assert (Sk : forall z, stored (OState g (o_explored st)) k z <-> z = v).
        { intros z. unfold stored. cbn [o_cost]. rewrite Gg by auto. rewrite cell_eqb_refl. split; [intros [E1 _]; congruence|]. intros ->. split; auto.
          exists (l ++ [k]). split; [eapply walk_snoc; eauto|]. rewrite (cost_snoc start l c k Wl), Vv, Cl. reflexivity. }
        assert (Nck : c <> k) by (intros ->; contradiction).
        split; [|apply St; auto; split; auto; exists l; auto].
        split; cbn [o_cost o_explored]; auto; try congruence.
        * intros a b J. apply In' in J as [J|J].
          { injection J as -> ->. split; auto. split; auto. exists v. split; auto. split; [now apply Sk|lra]. }
          destruct (i_F0 a b J) as (Ha & Na & z & -> & Sz & Bz). split; auto. split; auto. exists z. split; auto. split; auto. apply St; auto. intros ->. now apply (Fd (Some z)).
        * intros a Ia. destruct (i_EX0 a Ia) as (z & Sz & Bz). exists z. split; auto. apply St; auto. congruence.
        * intros a Ha Na Nf. rewrite Gg by auto. destruct (cell_eqb k a) eqn:Ea. { apply cell_eqb_eq in Ea as <-. exfalso. apply (Nf (Some v)), In'. auto. }
          apply i_none0; auto. intros b J. apply (Nf b), In'. auto.
        * intros c' k' Hc' S' N. assert (Nc' : c' <> k) by congruence. destruct (cell_eqb k' k) eqn:Ekk.
          { apply cell_eqb_eq in Ekk as ->. split; [right; exists (Some v); apply In'; auto|]. intros x' y' Sx' Sy'. apply Sk in Sy' as ->. apply St in Sx'; auto.
            destruct (cell_eqb c' c) eqn:Ecc.
            - apply cell_eqb_eq in Ecc as ->. assert (x' = x) as -> by (apply (stored_fun st c); [auto|split; [auto|exists l; auto]]). lra.
            - exfalso. destruct (i_step0 c' k Hc' S') as [[J|[w J]] _]; [intros [-> _]; rewrite cell_eqb_refl in Ecc; discriminate|contradiction|now apply (Fd w)]. }
          assert (Nk' : k' <> k) by (intros ->; rewrite cell_eqb_refl in Ekk; discriminate).
          destruct (i_step0 c' k' Hc' S') as [J B]. { intros [-> [J|J]]; [congruence|]. now apply N. }
          split. { destruct J as [J|[w J]]; auto. right. exists w. apply In'. auto. }
          intros x' y' Sx' Sy'. apply St in Sx', Sy'; auto. apply S'.
        * destruct i_start0 as [J|[w J]]; auto. right. exists w. apply In'. auto.
        * assert (start <> k) by (intros <-; destruct i_start0 as [J|[w J]]; [contradiction|now apply (Fd w)]). apply St; auto.
        * intros Fr a z Ha Sz. destruct (cell_dec a k) as [->|Na]; [|apply i_exact0; auto; now apply St]. apply Sk in Sz as ->. rewrite Vv.
          assert (Sx : stored st c x) by (split; auto; exists l; auto). assert (Nks : k <> start) by (intros ->; destruct i_start0 as [J|[w J]]; [contradiction|now apply (Fd w)]).
          rewrite (i_exact0 Fr c x (i_Ein0 c Hc) Sx). destruct (back_best start c k Nks T) as (_ & B1 & B2). symmetry. apply B2. destruct (Rle_lt_or_eq_dec _ _ B1) as [B3|B3]; auto. exfalso.
          pose proof (back_inside m n start k Hs Hk) as Hb'. assert (IB : In (back start k) E).
          { apply (nearer_explored _ _ _ _ _ _ x I); auto. rewrite <- HL, (i_exact0 Fr c x (i_Ein0 c Hc) Sx). exact B3. }
          destruct (i_step0 (back start k) k IB) as [[J|[w J]] _]; [|intros [Eb' _]; rewrite Eb' in B3; lra|contradiction|now apply (Fd w)].
          split; auto. split; [now apply back_touches|]. split; [now apply Fr|]. intros (_ & _ & K & _). rewrite Fr in K; [discriminate|]. destruct Hk, Hb'. split; cbn in *; lia.
  Qed.

  Lemma visit_all_inv E L c x : In c E -> val x = L -> forall ks fr st, (forall k, In k ks -> touches c k /\ inside m n k) -> NoDup ks ->
    inv E L c ks fr st -> stored st c x ->
    exists fr' st', oh_visit_all ltb add zero one diag occ c ks (fr, st) = Ok (fr', st') /\ inv E L c [] fr' st'.
  Proof.
    intros Hc HL. induction ks as [|k ks IH]; intros fr st Hk ND I Hx; cbn [oh_visit_all]; [eauto|]. inversion ND; subst.
    destruct (Hk k) as [T Ik]; [now left|]. destruct (visit_inv E (val x) c k ks fr st x) as (fr1 & st1 & -> & I1 & S1); auto. cbn [bind]. apply IH; auto. intros; apply Hk; now right.
  Qed.

  Lemma stored_explored st c x e : stored (OState (o_cost st) e) c x <-> stored st c x.
  Proof. reflexivity. Qed.

  (** One iteration. *)
  Lemma pop_inv E L cur fr st : inv E L cur [] fr st -> f_is_empty fr = false ->
    exists c x v fr1 e, f_pop veq fr = Ok ((c, v), fr1) /\ grid_set (o_explored st) c true = Ok e /\ inside m n c /\ ~ In c E /\
      stored (OState (o_cost st) e) c x /\ (forall ks, (forall k, In k ks <-> inside m n k /\ touches c k) -> inv (c :: E) (val x) c ks fr1 (OState (o_cost st) e)).
  Proof.
    intros I Hne. pose proof I as []. pose proof (f_pop_spec vcmp veq eq_equiv fr i_fr0) as Ps. destruct (rev (vec fr)) as [|[c v] r] eqn:Er.
    { exfalso. unfold f_is_empty in Hne. destruct (vec fr) as [|a l]; [discriminate|]. cbn in Er. now apply app_eq_nil in Er. }
    destruct Ps as (fr1 & Ep & Fi1 & Fv1). assert (Ev : vec fr = rev r ++ [(c, v)]) by (rewrite <- (rev_involutive (vec fr)), Er; reflexivity).
    assert (Icv : In (c, v) (vec fr)) by (rewrite Ev; apply in_or_app; cbn; auto). destruct (i_F0 c v Icv) as (Hc & Nc & x & -> & Sx & Bx).
    destruct (grid_set_spec (o_explored st) c true i_we0) as (e & Ee & We & Re & Ce & Ge). { now rewrite i_re0, i_ce0. }
    rewrite i_re0, i_ce0 in Ge. exists c, x, (Some x), fr1, e. split; auto. split; auto. split; auto. split; auto. split; auto.
    assert (In1 : forall a b, In (a, b) (vec fr1) <-> In (a, b) (vec fr) /\ a <> c).
    { destruct i_fr0 as (Ord & D & _). rewrite Ev in D. apply FOP_app in D as (_ & _ & D). intros a b. rewrite Fv1, Ev, in_app_iff. split.
      - intros J. split; auto. intros ->. specialize (D (c, b) (c, Some x) J ltac:(now left)). unfold e_eq in D. cbn in D. rewrite cell_eqb_refl in D. discriminate.
      - intros [[J|[J|[]]] Na]; auto. congruence. }
    assert (Min : forall a b, In (a, b) (vec fr1) -> exists y, b = Some y /\ stored st a y /\ (val x <= val y <= val x + sqrt 2)%R).
    { intros a b J. assert (J' := J). apply In1 in J' as [J' Na]. destruct (i_F0 a b J') as (Ha & _ & y & -> & Sy & By). exists y. split; auto. split; auto. split; [|lra].
      pose proof (s_top_max vcmp veq cmp_swo (vec fr) (c, Some x) r) as M. assert (K : vcmp (c, Some x) (a, Some y) = false). { apply M; auto. split; apply i_fr0. }
      cbn in K. now apply ltb_false in K. }
    intros ks Hks. split; cbn [o_cost o_explored]; auto; try congruence.
    - now constructor.
    - intros a [<-|J]; auto.
    - intros a Ha. rewrite Ge by auto. destruct (cell_eqb c a) eqn:Ea.
      + apply cell_eqb_eq in Ea as <-. exists true. split; auto. split; auto. intros _. now left.
      + destruct (i_expl0 a Ha) as (b & Eb & Hb). exists b. split; auto. rewrite Hb. split; [now right|]. intros [<-|J]; auto. rewrite cell_eqb_refl in Ea. discriminate.
    - intros a b J. destruct (Min a b J) as (y & -> & Sy & By). apply In1 in J as [J Na]. destruct (i_F0 a _ J) as (Ha & Ne & _). split; auto. split; [intros [<-|?]; auto|]. exists y. auto.
    - intros a [<-|J]; [exists x; split; auto; lra|]. destruct (i_EX0 a J) as (y & Sy & By). exists y. split; auto. lra.
    - intros a Ha Na Nf. apply i_none0; auto; [intros J; apply Na; now right|]. intros b J. apply (Nf b), In1. split; auto. intros ->. apply Na. now left.
    - intros c' k Hc' S N. destruct Hc' as [<-|Hc'].
      { exfalso. apply N. split; auto. apply Hks. split; [apply S|apply S]. }
      destruct (i_step0 c' k Hc' S) as [J B]. { intros [_ []]. }
      split; [|intros; apply B; auto]. destruct J as [J|[w J]]; [left; now right|]. destruct (cell_eqb k c) eqn:Ekc.
      + apply cell_eqb_eq in Ekc as ->. left. now left.
      + right. exists w. apply In1. split; auto. intros ->. rewrite cell_eqb_refl in Ekc. discriminate.
    - destruct i_start0 as [J|[w J]]; [left; now right|]. destruct (cell_eqb start c) eqn:Esc.
      + apply cell_eqb_eq in Esc as <-. left. now left.
      + right. exists w. apply In1. split; auto. intros ->. rewrite cell_eqb_refl in Esc. discriminate.
  Qed.

  Lemma explored_bound E L cur fr st : inv E L cur [] fr st -> (length E <= length (map_cells m n))%nat.
  Proof. intros []. apply NoDup_incl_length; auto. intros c Hc. apply map_cells_In. auto. Qed.

  Lemma loop_inv fuel : forall E L cur fr st, inv E L cur [] fr st -> (length (map_cells m n) < fuel + length E)%nat ->
    exists st' E' L' cur' fr', oh_loop ltb add zero one diag fuel m n occ (fr, st) = Ok st' /\ inv E' L' cur' [] fr' st' /\ vec fr' = [].
  Proof.
    induction fuel as [|fuel IH]; intros E L cur fr st I Hf.
    { pose proof (explored_bound _ _ _ _ _ I). lia. }
    cbn [oh_loop]. destruct (f_is_empty fr) eqn:Ee.
    { exists st, E, L, cur, fr. split; auto. split; auto. unfold f_is_empty in Ee. destruct (vec fr); auto; discriminate. }
    destruct (pop_inv E L cur fr st I Ee) as (c & x & v & fr1 & e & -> & E2 & Hc & Nc & Sx & I1). cbn [bind fst]. rewrite E2. cbn [bind].
    destruct (get_neighbors_spec m n c Hc) as [ND Nb]. specialize (I1 (get_neighbors m n c) Nb).
    destruct (visit_all_inv (c :: E) (val x) c x ltac:(now left) eq_refl (get_neighbors m n c) fr1 (OState (o_cost st) e)) as (fr2 & st2 & -> & I2); auto.
    { intros k Hk. apply Nb in Hk. tauto. }
    cbn [bind]. apply (IH (c :: E) (val x) c fr2 st2); auto. cbn [length]. lia.
  Qed.

  (** ** The result *)
  Lemma update_spec st0 fuel : gwf (o_cost st0) -> rows (o_cost st0) = m -> columns (o_cost st0) = n ->
    gwf (o_explored st0) -> rows (o_explored st0) = m -> columns (o_explored st0) = n -> (Z.to_nat m * Z.to_nat n < fuel)%nat ->
    exists st, oh_update ltb add zero one diag fuel m n occ start st0 = Ok st /\
      gwf (o_cost st) /\ rows (o_cost st) = m /\ columns (o_cost st) = n /\ gwf (o_explored st) /\ rows (o_explored st) = m /\ columns (o_explored st) = n /\
      (forall c, inside m n c -> exists b, grid_get (o_explored st) c = Ok b /\ (b = true <-> exists l, walk m n o start l c)) /\
      (forall c, inside m n c -> grid_get (o_explored st) c = Ok false -> grid_get (o_cost st) c = Ok None) /\
      (forall c, inside m n c -> grid_get (o_explored st) c = Ok true -> exists x, grid_get (o_cost st) c = Ok (Some x) /\
         (exists l, walk m n o start l c /\ val x = walk_cost octile start l) /\
         (forall l, walk m n o start l c -> val x <= sqrt 2 * INR (length l))%R /\
         (free -> val x = octile_distance start c)).
  Proof.
    intros W1 R1 C1 W2 R2 C2 Hf. unfold oh_update, oh_reset. unfold value in *.
    destruct (@reset_writes (option C) (o_cost st0) None m n W1 R1 C1) as (g1 & -> & Wg & Rg & Cg & Gg). cbn [bind].
    destruct (reset_writes (o_explored st0) false m n W2 R2 C2) as (e1 & -> & We & Re & Ce & Ge). cbn [bind].
    assert (cell_is_valid start = true) as -> by (unfold cell_is_valid; destruct Hs; lia). cbn [negb].
    pose proof (f_push_spec vcmp veq cmp_swo eq_equiv (start, Some zero) f_empty (finv_empty vcmp veq)) as Ps. cbn [f_empty vec find] in Ps. destruct Ps as (fr & -> & Fi & Fv). cbn [bind o_cost].
    destruct (grid_set_spec g1 start (Some zero) Wg) as (g & -> & Wg' & Rg' & Cg' & Gg'). { now rewrite Rg, Cg. }
    rewrite Rg, Cg in Gg'. cbn [bind o_explored]. cbn in Fv.
    assert (Ss : stored (OState g e1) start zero).
    { split; [cbn [o_cost]; rewrite Gg', cell_eqb_refl by auto; reflexivity|]. exists []. split; [reflexivity|]. cbn. apply (ex_zero _ _ _ _ _ _ EX). }
    pose proof sqrt2_bounds as S2. pose proof (ex_zero _ _ _ _ _ _ EX) as V0.
    destruct (loop_inv fuel [] 0%R start fr (OState g e1)) as (st & E & L & cur & fr' & El & I & Ev).
    - split; cbn [o_cost o_explored]; auto; try exact (eq_trans Rg' Rg); try exact (eq_trans Cg' Cg).
      + constructor.
      + intros c [].
      + intros c Hc. exists false. split; [auto|]. split; [discriminate|easy].
      + intros c v J. rewrite Fv in J. destruct J as [J|[]]. injection J as <- <-. split; auto. split; [easy|]. exists zero. split; auto. split; auto. lra.
      + intros c [].
      + intros c Hc _ Nf. rewrite Gg' by auto. destruct (cell_eqb start c) eqn:Ec; auto. apply cell_eqb_eq in Ec as <-. exfalso. apply (Nf (Some zero)). rewrite Fv. now left.
      + intros c k [].
      + right. exists (Some zero). rewrite Fv. now left.
      + intros _ a z Ha [Ez _]. cbn [o_cost] in Ez. rewrite Gg' in Ez by auto. destruct (cell_eqb start a) eqn:Ea; [|rewrite Gg in Ez by auto; discriminate].
        apply cell_eqb_eq in Ea as <-. rewrite od_refl. congruence.
    - rewrite map_cells_length. cbn [length]. lia.
    - exists st. split; auto. destruct I. rewrite Ev in *. assert (Reach : forall l p c, In p E -> walk m n o p l c -> In c E /\ forall x y, stored st p x -> stored st c y -> (val y <= val x + sqrt 2 * INR (length l))%R).
      { induction l as [|k l IH]; intros p c Hp Wl.
        - cbn in Wl. subst c. split; auto. intros x y Sx Sy. rewrite (stored_fun st p x y) by auto. cbn. lra.
        - destruct Wl as [S Wl]. destruct (i_step0 p k Hp S) as [[J|[w []]] B]. { intros [_ []]. }
          destruct (IH k c J Wl) as [Ic B2]. split; auto. intros x y Sx Sy. destruct (i_EX0 k J) as (z & Sz & _). specialize (B x z Sx Sz). specialize (B2 z y Sz Sy).
          cbn [length]. rewrite S_INR. lra. }
      assert (Is : In start E) by (destruct i_start0 as [J|[w []]]; auto).
      assert (WE : forall c, In c E <-> exists l, walk m n o start l c).
      { intros c. split; [intros J; destruct (i_EX0 c J) as (x & [_ (l & Wl & _)] & _); eauto|]. intros (l & Wl). now apply (Reach l start c). }
      do 6 (split; [auto|]). split; [|split].
      + intros c Hc. destruct (i_expl0 c Hc) as (b & Eb & Hb). exists b. split; auto. now rewrite Hb.
      + intros c Hc Ec. apply i_none0; auto. destruct (i_expl0 c Hc) as (b & Eb & Hb). intros J. apply Hb in J. congruence.
      + intros c Hc Ec. destruct (i_expl0 c Hc) as (b & Eb & Hb). assert (J : In c E) by (apply Hb; congruence). destruct (i_EX0 c J) as (x & Sx & _). exists x. split; [apply Sx|]. split; [apply Sx|].
        split; [|intros Fr; now apply i_exact0].
        intros l Wl. destruct (Reach l start c Is Wl) as [_ B]. destruct (i_EX0 start Is) as (s0 & Ss0 & _).
        rewrite (stored_fun st start s0 zero) in * by auto. specialize (B zero x Ss0 Sx). lra.
  Qed.
End Update.

(** ** Sizes *)
Definition sized {C} (m n : Z) (st : ostate C) : Prop :=
  (gwf (o_cost st) /\ rows (o_cost st) = m /\ columns (o_cost st) = n) /\ (gwf (o_explored st) /\ rows (o_explored st) = m /\ columns (o_explored st) = n).

Lemma grid_set_size {T} (g : grid T) p v g' m n : grid_set g p v = Ok g' -> gwf g /\ rows g = m /\ columns g = n -> gwf g' /\ rows g' = m /\ columns g' = n.
Proof.
  unfold grid_set. destruct (0 <=? _); [|discriminate]. destruct (vset _ _ _) as [d| | |] eqn:E; try discriminate. cbn [bind]. intros H ((W1 & W2 & W3) & R1 & C1). injection H as <-.
  apply nth_error_vset in E as (El & _). unfold gwf. cbn. rewrite El. auto.
Qed.
Lemma grid_writes_size {T} ws : forall (g : grid T) g' m n, grid_writes g ws = Ok g' -> gwf g /\ rows g = m /\ columns g = n -> gwf g' /\ rows g' = m /\ columns g' = n.
Proof.
  induction ws as [|[p v] ws IH]; intros g g' m n; cbn [grid_writes]; [intros H; injection H as <-; auto|].
  destruct (grid_set g p v) as [g1| | |] eqn:E; try discriminate. cbn [bind]. intros H S. apply (IH g1 g' m n H). eapply grid_set_size; eauto.
Qed.

Section Size.
  Context {C : Type}.
  Variables (ltb : C -> C -> bool) (add : C -> C -> C) (zero one diag : C) (m n : Z).

  Lemma visit_size occ c fr st k fr' st' : oh_visit ltb add zero one diag occ c (fr, st) k = Ok (fr', st') -> sized m n st -> sized m n st'.
  Proof.
    unfold oh_visit. intros H S. destruct (oh_skipped occ c k) as [b| | |]; try discriminate. cbn [bind] in H. destruct b; [now injection H as _ <-|].
    destruct (grid_get (o_cost st) c) as [x| | |]; try discriminate. cbn [bind] in H. destruct (grid_get (o_explored st) k) as [e| | |]; try discriminate. cbn [bind] in H.
    destruct (f_find _ _ _).
    - destruct (grid_get (o_cost st) k) as [y| | |]; try discriminate. cbn [bind] in H. destruct (v_gtb _ _ _); [|now injection H as _ <-].
      destruct (f_remove _ _ _ _) as [[r fr1]| | |]; try discriminate. cbn [bind] in H. destruct (f_push _ _ _ _) as [[r2 fr2]| | |]; try discriminate. cbn [bind] in H.
      destruct (grid_set _ _ _) as [g| | |] eqn:E; try discriminate. cbn [bind] in H. injection H as _ <-. destruct S as [S1 S2]. split; [eapply grid_set_size; eauto|exact S2].
    - destruct e; [now injection H as _ <-|]. destruct (f_push _ _ _ _) as [[r2 fr2]| | |]; try discriminate. cbn [bind] in H.
      destruct (grid_set _ _ _) as [g| | |] eqn:E; try discriminate. cbn [bind] in H. injection H as _ <-. destruct S as [S1 S2]. split; [eapply grid_set_size; eauto|exact S2].
  Qed.
  Lemma visit_all_size occ c l : forall fr st fr' st', oh_visit_all ltb add zero one diag occ c l (fr, st) = Ok (fr', st') -> sized m n st -> sized m n st'.
  Proof.
    induction l as [|k l IH]; intros fr st fr' st'; cbn [oh_visit_all]; [intros H; now injection H as _ <-|].
    destruct (oh_visit _ _ _ _ _ _ _ _ _) as [[fr1 st1]| | |] eqn:E; try discriminate. cbn [bind]. intros H S. apply (IH fr1 st1 fr' st' H). eapply visit_size; eauto.
  Qed.
  Lemma loop_size rows' columns' occ fuel : forall fr st st', oh_loop ltb add zero one diag fuel rows' columns' occ (fr, st) = Ok st' -> sized m n st -> sized m n st'.
  Proof.
    induction fuel as [|fuel IH]; intros fr st st'; cbn [oh_loop]; [discriminate|]. destruct (f_is_empty fr); [intros H; now injection H as <-|].
    destruct (f_pop _ _) as [[x fr1]| | |]; try discriminate. cbn [bind]. destruct (grid_set _ _ _) as [e| | |] eqn:E; try discriminate. cbn [bind].
    destruct (oh_visit_all _ _ _ _ _ _ _ _ _) as [[fr2 st2]| | |] eqn:E2; try discriminate. cbn [bind]. intros H [S1 S2]. apply (IH fr2 st2 st' H). eapply visit_all_size; [exact E2|].
    split; [exact S1|]. eapply grid_set_size; eauto.
  Qed.
  Lemma update_size rows' columns' occ fuel start st st' : oh_update ltb add zero one diag fuel rows' columns' occ start st = Ok st' -> sized m n st -> sized m n st'.
  Proof.
    unfold oh_update, oh_reset. destruct (grid_writes (o_cost st) _) as [g| | |] eqn:E1; try discriminate. cbn [bind]. destruct (grid_writes (o_explored st) _) as [e| | |] eqn:E2; try discriminate. cbn [bind].
    intros H [S1 S2]. assert (S : sized m n (OState g e)) by (split; cbn; eapply grid_writes_size; eauto).
    destruct (cell_is_valid start); cbn [negb] in H; [|now injection H as <-]. destruct (f_push _ _ _ _) as [[r fr]| | |]; try discriminate. cbn [bind] in H.
    destruct (grid_set _ _ _) as [g2| | |] eqn:E3; try discriminate. cbn [bind] in H. eapply loop_size; [exact H|]. destruct S as [S3 S4]. split; [|exact S4]. eapply grid_set_size; eauto.
  Qed.
  Lemma updated_size st : updated ltb add zero one diag m n st -> sized m n st.
  Proof.
    induction 1 as [st H|st fuel occ start st' _ IH H]; [|eapply update_size; eauto]. unfold oh_new in H. destruct (grid_new m n None) as [c| | |] eqn:E1; try discriminate. cbn [bind] in H.
    destruct (grid_new m n false) as [e| | |] eqn:E2; try discriminate. cbn [bind] in H. injection H as <-. split; cbn; eapply grid_new_wf; eauto.
  Qed.
End Size.

(** ** The results about [Update] *)
Section Results.
  Context {C : Type}.
  Variables (ltb : C -> C -> bool) (add : C -> C -> C) (zero one diag : C) (val : C -> R).
  Hypothesis EX : exact ltb add zero one diag val.

  Lemma update_explored m n occ o start fuel st0 : updated ltb add zero one diag m n st0 -> answers m n occ o -> inside m n start -> (Z.to_nat m * Z.to_nat n < fuel)%nat ->
    exists st, oh_update ltb add zero one diag fuel m n occ start st0 = Ok st /\
    forall c, inside m n c -> exists b, grid_get (o_explored st) c = Ok b /\ (b = true <-> exists l, walk m n o start l c).
  Proof.
    intros U A Hs Hf. apply updated_size in U as ((W1 & R1 & C1) & (W2 & R2 & C2)).
    destruct (update_spec ltb add zero one diag val EX m n occ o start A Hs st0 fuel W1 R1 C1 W2 R2 C2 Hf) as (st & E & _ & _ & _ & _ & _ & _ & H & _). eauto.
  Qed.

  Lemma update_stored m n occ o start fuel st0 st c : updated ltb add zero one diag m n st0 -> answers m n occ o -> inside m n start -> (Z.to_nat m * Z.to_nat n < fuel)%nat ->
    oh_update ltb add zero one diag fuel m n occ start st0 = Ok st -> inside m n c ->
    (forall l, walk m n o start l c -> exists x, grid_get (o_cost st) c = Ok (Some x) /\ (exists l, walk m n o start l c /\ val x = walk_cost octile start l) /\ (val x <= sqrt 2 * INR (length l))%R /\
       ((forall k, inside m n k -> o k = false) -> val x = octile_distance start c)) /\
    ((forall l, ~ walk m n o start l c) -> grid_get (o_cost st) c = Ok None).
  Proof.
    intros U A Hs Hf Eu Hc. apply updated_size in U as ((W1 & R1 & C1) & (W2 & R2 & C2)).
    destruct (update_spec ltb add zero one diag val EX m n occ o start A Hs st0 fuel W1 R1 C1 W2 R2 C2 Hf) as (st' & E & _ & _ & _ & _ & _ & _ & H1 & H2 & H3).
    assert (st' = st) as -> by congruence. destruct (H1 c Hc) as (b & Eb & Hb). split.
    - intros l Wl. assert (b = true) as -> by (apply Hb; eauto). destruct (H3 c Hc Eb) as (x & Ex & L1 & L2 & L3). exists x. auto.
    - intros N. apply H2; auto. destruct b; auto. exfalso. destruct (proj1 Hb eq_refl) as (l & Wl). now apply (N l).
  Qed.
End Results.

Lemma walk_length_cost m n o l : forall p q, walk m n o p l q -> (INR (length l) <= walk_cost octile p l)%R.
Proof.
  induction l as [|k l IH]; intros p q; [cbn; lra|]. intros [_ W]. cbn [length walk_cost]. rewrite S_INR. specialize (IH k q W). pose proof sqrt2_bounds. unfold octile at 1. destruct (_ || _); lra.
Qed.

(** Walks on a map without obstacles. *)
Lemma free_walk m n o s : inside m n s -> (forall k, inside m n k -> o k = false) -> forall c, inside m n c -> exists l, walk m n o s l c.
Proof.
  intros Hs Fr. assert (G : forall d q, (Z.to_nat (Z.max (Z.abs (row s - row q)) (Z.abs (col s - col q))) < d)%nat -> inside m n q -> exists l, walk m n o s l q).
  { induction d as [|d IH]; intros q Hd Hq; [lia|]. destruct (cell_dec q s) as [->|N]; [exists []; reflexivity|].
    pose proof (back_cheb s q N). pose proof (back_inside m n s q Hs Hq) as Hb. destruct (IH (back s q)) as (l & W); [lia|auto|]. exists (l ++ [q]). eapply walk_snoc; [exact W|].
    split; auto. split; [now apply back_touches|]. split; [now apply Fr|]. intros (_ & _ & K & _). rewrite Fr in K; [discriminate|]. destruct Hq, Hb. split; cbn in *; lia. }
  intros c. eapply G. apply Nat.lt_succ_diag_r.
Qed.

(** ** Instances *)
Lemma exact_R : exact Rltb Rplus 0%R 1%R (sqrt 2) (fun x => x).
Proof. split; auto. intros a b. apply Rltb_true. Qed.

Lemma exact_zr2 : exact zr2_ltb zr2_add (0, 0) (1, 0) (0, 1) zr2_val.
Proof.
  pose proof (sqrt_sqrt 2 ltac:(lra)) as Q. pose proof sqrt2_bounds as B.
  split; unfold zr2_val; cbn [fst snd]; try lra.
  2: intros [a b] [c d]; cbn; rewrite !plus_IZR; ring.
  intros [a b] [c d]. unfold zr2_ltb. cbn [fst snd].
  assert (Ex : IZR c = (IZR a + IZR (c - a))%R) by (rewrite minus_IZR; ring). assert (Ed : IZR d = (IZR b + IZR (d - b))%R) by (rewrite minus_IZR; ring).
  rewrite Ex, Ed. set (x := c - a) in *. set (y := d - b) in *. clearbody x y. clear Ex Ed.
  assert (G : (IZR a + IZR b * sqrt 2 < IZR a + IZR x + (IZR b + IZR y) * sqrt 2 <-> 0 < IZR x + IZR y * sqrt 2)%R) by (split; intros; lra).
  rewrite G. clear G a b c d.
  destruct (Z.leb_spec 0 x) as [Hx|Hx]; destruct (Z.leb_spec 0 y) as [Hy|Hy]; (apply IZR_le in Hx || apply IZR_lt in Hx); (apply IZR_le in Hy || apply IZR_lt in Hy).
  - split.
    + intros H. apply orb_true_iff in H as [H|H]; apply Z.ltb_lt, IZR_lt in H; nra.
    + intros H. apply orb_true_iff. destruct (Z.ltb_spec 0 x) as [H1|H1]; auto. destruct (Z.ltb_spec 0 y) as [H2|H2]; auto. apply IZR_le in H1, H2. exfalso. nra.
  - rewrite Z.ltb_lt. split.
    + intros H. apply IZR_lt in H. rewrite !mult_IZR in H. assert (0 < (IZR x + IZR y * sqrt 2) * (IZR x - IZR y * sqrt 2))%R by nra. assert (0 < IZR x - IZR y * sqrt 2)%R by nra.
      destruct (Rlt_dec 0 (IZR x + IZR y * sqrt 2)) as [K|K]; auto. exfalso. nra.
    + intros H. apply lt_IZR. rewrite !mult_IZR. assert (0 < IZR x - IZR y * sqrt 2)%R by nra. assert (0 < (IZR x + IZR y * sqrt 2) * (IZR x - IZR y * sqrt 2))%R by nra. nra.
  - rewrite Z.ltb_lt. split.
    + intros H. apply IZR_lt in H. rewrite !mult_IZR in H. assert (0 < (IZR x + IZR y * sqrt 2) * (IZR y * sqrt 2 - IZR x))%R by nra. assert (0 < IZR y * sqrt 2 - IZR x)%R by nra.
      destruct (Rlt_dec 0 (IZR x + IZR y * sqrt 2)) as [K|K]; auto. exfalso. nra.
    + intros H. apply lt_IZR. rewrite !mult_IZR. assert (0 < IZR y * sqrt 2 - IZR x)%R by nra. assert (0 < (IZR x + IZR y * sqrt 2) * (IZR y * sqrt 2 - IZR x))%R by nra. nra.
  - split; [discriminate|]. intros H. exfalso. nra.
Qed.

(** ** The goal outside the map *)
Lemma update_outside {C} ltb add (zero one diag : C) m n occ start fuel st0 : updated ltb add zero one diag m n st0 -> cell_is_valid start = false ->
  exists st, oh_update ltb add zero one diag fuel m n occ start st0 = Ok st /\ forall c, inside m n c -> grid_get (o_explored st) c = Ok false /\ grid_get (o_cost st) c = Ok None.
Proof.
  intros U V. apply updated_size in U as ((W1 & R1 & C1) & (W2 & R2 & C2)). unfold oh_update, oh_reset. unfold value in *.
  destruct (@reset_writes (option C) (o_cost st0) None m n W1 R1 C1) as (g1 & -> & _ & _ & _ & Gg). cbn [bind].
  destruct (reset_writes (o_explored st0) false m n W2 R2 C2) as (e1 & -> & _ & _ & _ & Ge). cbn [bind]. rewrite V. cbn [negb]. eexists. split; [reflexivity|]. intros c Hc. split; [now apply Ge|now apply Gg].
Qed.

(** ** The value *)
Local Open Scope R_scope.

Lemma norm_distance (a b : point) : sqrt (fst (psub a b) * fst (psub a b) + snd (psub a b) * snd (psub a b)) = Straight_spec.distance b a.
Proof. reflexivity. Qed.

Lemma value_spec f reverse forward goal position m n occ o start fuel st0 st c :
  fr_rows f = m -> fr_cols f = n -> updated Rltb Rplus 0 1 (sqrt 2) m n st0 -> answers m n occ o -> inside m n start -> (Z.to_nat m * Z.to_nat n < fuel)%nat ->
  oh_update Rltb Rplus 0 1 (sqrt 2) fuel m n occ start st0 = Ok st -> world_to_cell f position false = Ok c ->
  exists v, oh_value f reverse forward goal position st = Ok (Some v) /\
    ((inside m n c /\ exists l, walk m n o start l c /\ v = Rmax (walk_cost octile start l * (Rmin reverse forward * fr_res f) - sqrt 2 * fr_res f) (Straight_spec.distance position goal) /\
        ((forall k, inside m n k -> o k = false) -> walk_cost octile start l = octile_distance start c)) \/
     ((~ inside m n c \/ forall l, ~ walk m n o start l c) /\ v = Straight_spec.distance position goal)).
Proof.
  intros Em En U A Hs Hf Eu Ec. unfold oh_value. rewrite norm_distance. apply bounded_conv in Ec. unfold world_to_cell. rewrite Ec.
  pose proof (inside_cell_iff f c) as Hi. rewrite Em, En in Hi. destruct (inside_cell f c); cbn [bind].
  - assert (Hc : inside m n c) by now apply Hi. replace (cell_is_valid c) with true by (unfold cell_is_valid; destruct Hc; lia). cbn [negb].
    destruct (update_explored Rltb Rplus 0 1 (sqrt 2) (fun x => x) exact_R m n occ o start fuel st0 U A Hs Hf) as (st' & E & H). assert (st' = st) as -> by congruence.
    destruct (H c Hc) as (b & -> & Hb). cbn [bind]. destruct (update_stored Rltb Rplus 0 1 (sqrt 2) (fun x => x) exact_R m n occ o start fuel st0 st c U A Hs Hf Eu Hc) as (K & _).
    destruct b; cbn [negb].
    + destruct (proj1 Hb eq_refl) as (l & Wl). destruct (K l Wl) as (x & -> & (l' & Wl' & ->) & _ & Fr). cbn [bind option_map]. eexists. split; [reflexivity|]. left. split; auto. exists l'. split; auto.
    + eexists. split; [reflexivity|]. right. split; auto. right. intros l Wl. assert (false = true) by (apply Hb; eauto). discriminate.
  - cbn [negb cell_is_valid row col]. eexists. split; [reflexivity|]. right. split; auto. left. intros Hc. apply Hi in Hc. discriminate.
Qed.

Lemma value_euclid f reverse forward goal position st v : oh_value f reverse forward goal position st = Ok (Some v) -> Straight_spec.distance position goal <= v.
Proof.
  unfold oh_value. rewrite norm_distance. destruct (world_to_cell f position true) as [c| | |]; try discriminate. cbn [bind]. destruct (cell_is_valid c); cbn [negb].
  2: intros H; injection H as <-; lra.
  destruct (grid_get (o_explored st) c) as [e| | |]; try discriminate. cbn [bind]. destruct e; cbn [negb]. 2: intros H; injection H as <-; lra.
  destruct (grid_get (o_cost st) c) as [[x|]| | |]; try discriminate. cbn [bind option_map]. intros H. injection H as <-. apply Rmax_r.
Qed.
