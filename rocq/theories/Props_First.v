(** C111: measurements not newer than the first one to arrive; the delay example behind the handler. *)
From Coq Require Import ZArith List Bool Arith Lia Permutation Sorted.
From Flocq Require Import IEEE754.BinarySingleNaN.
From mathcomp Require Import all_ssreflect all_algebra.
From Verif Require Import Outcome Spec_Time DoubleModel BufModel Spec_Buf BufProofs HorizonModel HorizonProofs MeasModel HandlerModel Spec_Handler ClockProofs ReplayProofs ArrivalProofs WindowProofs Props_Buffers Props_Handler2 FirstProofs SimModel Props_Sim SimHandler DMat BeliefModel EigenModel EstModel Spec_Est EstProofs Props_Est ExModel Spec_Ex ExProofs ExRun Props_Ex.
Set Implicit Arguments. Unset Strict Implicit. Unset Printing Implicit Defensive.
Local Open Scope Z_scope.

(** ** any estimator of the contract *)
(** the measurements that count: the first to arrive and, of the others, those newer than it *)
Definition newer_than {P} (m0 : meas P) (rest : list (meas P)) : list (meas P) := List.filter (fun m => m_t m0 <? m_t m) rest.

Section Generic.
Variables (B M P : Type) (good : dict B M -> Prop) (okm : meas P -> Prop)
    (deleg : dict B M -> meas P -> dict B M * status) (wa wb lo hz hzo tmax slack : Z) (h : handler B M P) (m0 : meas P) (rest : list (meas P)).
Hypotheses (Ck : clock tmax slack) (C : contract wa wb good okm deleg)
  (W : wf wa wb (h_dict h)) (G : good (h_dict h)) (In0 : initialised lo (h_dict h)) (Hm : h_meas h = nil) (Ho : h_ooo h = nil) (Hr : h_redo h = nil)
  (Dn : denotes_ns (h_max h) hz) (Hh : 0 <= hz < 2097151 * giga) (Dno : denotes_ns (h_ooo_max h) hzo) (Hho : 0 <= hzo < 2097151 * giga) (Lo : 0 <= lo)
  (Pr : processable good okm deleg (h_dict h) lo wa wb hz hzo tmax slack (m0 :: newer_than m0 rest))
  (Rt : forall m, List.In m rest -> 0 <= m_t m < tmax)
  (Gap : forall m, List.In m rest -> m_t m0 < m_t m -> m_t m0 + slack < m_t m).

Lemma prefix_state a b : newer_than m0 rest = (a ++ b)%list ->
  exists h1, process_all deleg h (m0 :: a) = Ok h1 /\ h_meas h1 = List.map (fun m => (m_t m, m)) (chrono (m0 :: a)).
Proof.
move=> E; have Sub x : List.In x (m0 :: a) -> List.In x (m0 :: newer_than m0 rest).
  by move=> [<-|Hx]; [left|right; rewrite E; apply: List.in_or_app; left].
have Old x : List.In x a -> m_t m0 + slack < m_t x.
  move=> Hx; have : List.In x (newer_than m0 rest) by rewrite E; apply: List.in_or_app; left.
  by move/List.filter_In=> [H1 /Z.ltb_lt H2]; exact: Gap.
have [h1 [h2 [E1 [_ [_ [M1 _]]]]]] := C42_arrival_order_irrelevant _ _ _ _ _ _ _ _ _ _ _ _ _ _ _ _ _ Ck C W G In0 Hm Ho Hr Dn Hh Dno Hho Lo (processable_incl _ _ _ _ _ _ _ _ _ _ _ _ _ Sub Pr) Old (chrono_ss _).
by exists h1.
Qed.
(** measurements not newer than the first one to arrive change nothing: the others decide *)
Theorem C111_only_newer_count : process_all deleg h (m0 :: rest) = process_all deleg h (m0 :: newer_than m0 rest).
Proof.
apply: (only_newer_gen _ _ _ _ _ _ Ck) prefix_state.
move=> x [<-|Hx]; last exact: Rt.
by have [A _] := Pr; have [_ [Q _]] := A m0 (or_introl erefl); lia.
Qed.
(** each of them, whenever it arrives, is answered DISCARDED without any effect *)
Theorem C111_discarded a m b : rest = (a ++ m :: b)%list -> m_t m <= m_t m0 ->
  exists h1, process_all deleg h (m0 :: a) = Ok h1 /\ process deleg m h1 = Ok (h1, List.cons discarded_result nil).
Proof.
move=> E Le; have E2 : newer_than m0 rest = (newer_than m0 a ++ newer_than m0 (m :: b))%list by rewrite E /newer_than List.filter_app.
have [h1 [E1 M1]] := prefix_state E2.
have R0 : 0 <= m_t m0 < tmax by have [A _] := Pr; have [_ [Q _]] := A m0 (or_introl erefl); lia.
have Ra x : List.In x a -> 0 <= m_t x < tmax by move=> Hx; apply: Rt; rewrite E; apply: List.in_or_app; left.
exists h1; split.
  rewrite (only_newer_gen _ _ _ _ _ _ Ck); [exact: E1|by move=> x [<-|Hx] //; exact: Ra|].
  move=> a1 b1 Ea; have : newer_than m0 rest = (a1 ++ (b1 ++ newer_than m0 (m :: b)))%list by rewrite E2 /newer_than Ea List.app_assoc.
  exact: prefix_state.
apply: (stale_discarded _ tmax slack m0 (newer_than m0 a)) => //.
  move=> x [<-|]; first by lia.
  by move/List.filter_In=> [Hx /Z.ltb_lt L]; have := Ra _ Hx; lia.
by have := Rt; move/(_ m); rewrite E => H; have := H ltac:(by apply: List.in_or_app; right; left); lia.
Qed.
(** so every arrival order with the same first measurement gives what the chronological order of the newer ones gives *)
Theorem C111_any_order inorder : stable_sort (m0 :: newer_than m0 rest) inorder ->
  exists h1 h2, process_all deleg h (m0 :: rest) = Ok h1 /\ process_all deleg h inorder = Ok h2 /\
    same (h_dict h1) (h_dict h2) /\ h_meas h1 = List.map (fun m => (m_t m, m)) inorder /\ h_meas h2 = h_meas h1 /\ h_ooo h1 = h_ooo h2.
Proof.
move=> St; rewrite C111_only_newer_count.
apply: (C42_arrival_order_irrelevant _ _ _ _ _ _ _ _ _ _ _ _ _ _ _ _ _ Ck C W G In0 Hm Ho Hr Dn Hh Dno Hho Lo Pr _ St).
by move=> m /List.filter_In [H1 /Z.ltb_lt H2]; exact: Gap.
Qed.
End Generic.

(** ** the delay example: shipped estimator, shipped sequence of measurements *)
Section Example_.
Variable F : realFieldType.
Variable junk : forall n, 'M[F]_n -> 'M[F]_n.
Variable garbage : forall m n, 'M[F]_(m, n).
Variable is_psd : dmat F -> bool.
Variable nearest : dmat F -> dmat F.
Variable eps0 : F.
Variable dtf : Z -> Z -> F.
Notation del hor fallback := (ex_with junk garbage hor is_psd nearest eps0 dtf fallback).
Notation two := (fun _ : nat => 2%N).
Variables (dp dj : nat) (first_only joint : bool) (N K : nat) (t : nat -> Z) (val : sim_meas -> ex_dat F).
Hypotheses (Hp : Z.of_nat dp < 2 ^ 31) (Hj : Z.of_nat dj < 2 ^ 31) (HN : (1 <= N)%coq_nat) (HK : (2 <= K)%coq_nat).
Let reg := List.seq 0 N.
Let arrivals := List.map (stamped t val) (simulation (Z.of_nat dp) (Z.of_nat dj) first_only joint N K).
Let first := stamped t val first_sim.

(** whatever the delays: no null pointer is dereferenced, no call fails, and the beliefs and the stored history in the end are those of
    the chronological order of the measurements newer than the first sample, after the first instance's first propagation *)
Theorem C111_delays_irrelevant (hz hzo : Z) (h : handler (belief F) (dmat F) (ex_dat F)) inorder :
  (* sample times and values *)
  0 <= t 0%nat -> (forall i j, (i < j)%coq_nat /\ (j < K)%coq_nat -> t i < t j) -> t (K - 1)%coq_nat < span_max ->
  (forall s, shaped 1 1 (x_z (val s)) /\ shaped 1 1 (x_R (val s))) -> (forall s j, s_ty s = JOINT -> s_peer s = Some j -> x_peer (val s) = j) ->
  (forall k (A : 'M[F]_k), exists B : 'M[F]_k, nearest (DM A) = DM B) ->
  (* every instance has a belief at the time of sample 0, and nothing was measured yet *)
  Spec_Handler.wf (t 0%nat) (t (K - 1)%coq_nat) (h_dict h) -> typed two reg (h_dict h) -> initialised (t 1%nat) (h_dict h) ->
  (forall id, (id < N)%coq_nat -> exists i, d_find id (h_dict h) = Some i /\ i_enabled i = true) ->
  h_meas h = nil -> h_ooo h = nil -> h_redo h = nil ->
  (* the horizon covers the run *)
  denotes_ns (h_max h) hz -> t (K - 1)%coq_nat - t 0%nat <= hz < span_max -> denotes_ns (h_ooo_max h) hzo -> 0 <= hzo < span_max ->
  stable_sort (first :: List.filter (fun m => t 1%nat <? m_t m) arrivals) inorder ->
  exists h1 h2,
    (forall fallback, process_all (del (h_max h) fallback) h arrivals = Ok h1) /\
    (forall fallback, process_all (del (h_max h) fallback) h inorder = Ok h2) /\
    same (h_dict h1) (h_dict h2) /\ h_meas h1 = List.map (fun m => (m_t m, m)) inorder /\ h_meas h2 = h_meas h1 /\
    Spec_Handler.wf (t 0%nat) (t (K - 1)%coq_nat) (h_dict h1) /\ typed two reg (h_dict h1).
Proof.
move=> T0 Ht TK Hs Hv Hn W Ty I0 En Em Eo Er Dn Hz Dno Hzo St.
have Ck : clock span_max 0 by left.
have Ht' (i j : nat) : (i < j)%coq_nat /\ (j < K)%coq_nat -> t i < t j by exact: Ht.
have T01 : t 0%nat < t 1%nat by apply: Ht; lia.
have TK1 : t 1%nat <= t (K - 1)%coq_nat by case: (Nat.eq_dec 1 (K - 1)%coq_nat) => [<-|Q]; [exact: Z.le_refl|apply: Z.lt_le_incl; apply: Ht; lia].
set rest := others dp dj first_only joint N K (ex_dat F) t val.
have Ea : arrivals = (first :: rest)%list by rewrite /arrivals (sim_first _ _ _ _ _ _ HN HK).
set kp := kept dp dj first_only joint N K (ex_dat F) t val.
have Ek : List.filter (fun m => t 1%nat <? m_t m) arrivals = kp by rewrite Ea /= Z.ltb_irrefl.
rewrite Ek in St.
have Tm m : List.In m (first :: rest) -> t 1%nat <= m_t m <= t (K - 1)%coq_nat.
  exact: (times dp dj first_only joint N K Hp Hj HN HK _ t val Ht').
have Ck' m : List.In m (first :: kp) -> Spec_Ex.fits reg m /\ (t 1%nat <= m_t m /\ m_t m <= t (K - 1)%coq_nat) /\ exists i, d_find (m_id m) (h_dict h) = Some i /\ i_enabled i = true.
  move=> Hin; have Hin' : List.In m (first :: rest) by move: Hin => [<-|/List.filter_In [Hin _]]; [left|right].
  have [s [Is Es]] := sim_meas_in dp dj first_only joint N K HN HK _ t val _ Hin'.
  have [B1 [B2 [B3 B4]]] := C110_in_bounds _ _ _ _ _ _ Hp Hj _ Is.
  split; last by split; [exact: Tm|rewrite Es; exact: En].
  subst m; split; first by apply/List.in_seq; simpl; lia.
  have [S1 S2] := Hs s; split=> //; split=> //; split.
    by move: Is => /(proj1 (C110_delivered _ _ _ _ _ _ Hp Hj _)) [[i [k [_ [_ ->]]]]|[[i [k [_ [_ [_ [_ ->]]]]]]|[_ [_ [i [k [_ [_ [_ ->]]]]]]]]].
  move=> Tj; have [j [Ej [Lj Nj]]] := B4 Tj; rewrite /= (Hv _ _ Tj Ej); split=> //; apply/List.in_seq; simpl; lia.
have Pp : prepared (first :: kp) by exact: (kept_prepared dp dj first_only joint N K Hp Hj HN HK _ t val (@x_peer F) Hv).
have Old a b : kp = (a ++ b)%list -> forall m, List.In m a -> m_t first + 0 < m_t m.
  move=> E m Hin; have : List.In m kp by rewrite E; apply: List.in_or_app; left.
  by move/List.filter_In=> [_ /Z.ltb_lt]; rewrite Z.add_0_r.
have Run a b io : kp = (a ++ b)%list -> stable_sort (first :: a) io -> exists h1 h2,
    (forall fallback, process_all (del (h_max h) fallback) h (first :: a) = Ok h1) /\
    (forall fallback, process_all (del (h_max h) fallback) h io = Ok h2) /\
    same (h_dict h1) (h_dict h2) /\ h_meas h1 = List.map (fun m => (m_t m, m)) io /\ h_meas h2 = h_meas h1 /\
    Spec_Handler.wf (t 0%nat) (t (K - 1)%coq_nat) (h_dict h1) /\ typed two reg (h_dict h1).
  move=> E Sa; apply: (@C100_arrival_order_irrelevant F junk garbage is_psd nearest eps0 dtf reg (t 0%nat) (t (K - 1)%coq_nat) (t 1%nat) hz hzo span_max 0 h first a io Ck Hn W Ty I0 Em Eo Er Dn _ Dno Hzo T0 _ TK _ _ (Old a b E) _ Sa); try lia.
    by move=> m [<-|Hin]; apply: Ck'; [left|right; rewrite E; apply: List.in_or_app; left].
  move=> x m y Ex; apply: (Pp x m (y ++ b)%list); by rewrite E -/(_ ++ _)%list List.app_comm_cons Ex -List.app_assoc.
have [h1 [h2 [E1 [E2 Q]]]] := Run kp nil _ (esym (List.app_nil_r _)) St.
exists h1, h2; split; last by [].
move=> f; rewrite -(E1 f) Ea; apply: (only_newer_gen _ _ _ _ _ _ Ck).
  by move=> x Hx; have := Tm _ Hx; lia.
by move=> a b E; have [g1 [g2 [G1 [_ [_ [G2 _]]]]]] := Run a b _ E (chrono_ss _); exists g1.
Qed.
(** which measurements these are: the first instance's propagation to sample 1 and everything delivered for later samples *)
Theorem C111_what_counts inorder : (forall i j, (i < j)%coq_nat /\ (j < K)%coq_nat -> t i < t j) ->
  stable_sort (first :: List.filter (fun m => t 1%nat <? m_t m) arrivals) inorder ->
  forall m, List.In m inorder <-> m = first \/
    exists s, List.In s (simulation (Z.of_nat dp) (Z.of_nat dj) first_only joint N K) /\ (2 <= s_sample s)%coq_nat /\ m = stamped t val s.
Proof.
move=> Ht [_ [Pm _]] m.
have Eq : List.In m inorder <-> List.In m (first :: List.filter (fun m => t 1%nat <? m_t m) arrivals).
  by split; apply: Permutation_in => //; exact: Permutation_sym.
rewrite Eq /=; split.
  move=> [<-|]; [by left|move/List.filter_In=> [/List.in_map_iff [s [<- Is]] /Z.ltb_lt /= L]]; right; exists s; split=> //; split=> //.
  have [B1 _] := C110_in_bounds _ _ _ _ _ _ Hp Hj _ Is.
  case: (Nat.eq_dec (s_sample s) 1) => Q; last by lia.
  by rewrite Q in L; lia.
move=> [->|[s [Is [L ->]]]]; [by left|right; apply/List.filter_In; split; first by apply: List.in_map].
have [B1 [B2 _]] := C110_in_bounds _ _ _ _ _ _ Hp Hj _ Is.
by apply/Z.ltb_lt; apply: Ht => /=; lia.
Qed.
End Example_.

(** a propagation of the same time as the first to arrive, and one of an older time *)
Definition ex_stale : list (meas Z) := Meas 1 10 PROPAGATION 7 :: Meas 1 30 PROPAGATION 5 :: Meas 0 20 PRIVATE 2 :: Meas 0 4 PRIVATE 9 :: Meas 1 40 PRIVATE (-1) :: Meas 0 30 PRIVATE 3 :: nil.
Example C111_generic_example :
  contract 0 1000 (fun _ => True) (fun _ => True) ex_deleg /\ Spec_Handler.wf 0 1000 ex_d0 /\ initialised 10 ex_d0 /\
  processable (fun _ => True) (fun _ => True) ex_deleg ex_d0 10 0 1000 1000 1000 (2097151 * giga) 0 (ex_m0 :: newer_than ex_m0 ex_stale) /\
  (forall m, List.In m ex_stale -> 0 <= m_t m < 2097151 * giga) /\ (forall m, List.In m ex_stale -> m_t ex_m0 < m_t m -> m_t ex_m0 + 0 < m_t m) /\
  List.In (Meas 1 10 PROPAGATION 7) ex_stale /\ m_t (Meas 1 10 PROPAGATION 7) <= m_t ex_m0.
Proof.
have [C [W [I0 [Pr _]]]] := C42_example.
split=> //; split=> //; split=> //; split.
  exact: Pr.
split; first by move=> m; case=> [<-|[<-|[<-|[<-|[<-|[<-|[]]]]]]].
by split; [move=> m _; rewrite Z.add_0_r|split; [left|]].
Qed.
(** two instances, samples at 5, 10, 15 and 20 ns, horizon 3 s, private measurements one and joint ones two samples late *)
Section Example111.
Notation Q := rat_realFieldType.
Notation D k l := (@DM Q k l).
Definition d111 : dict (belief Q) (dmat Q) :=
  (0%nat, Inst true ((Zpos 5, bel100) :: nil) ((1%nat, (Zpos 5, D 2 2 1%:M) :: nil) :: nil)) ::
  (1%nat, Inst true ((Zpos 5, bel100) :: nil) ((0%nat, (Zpos 5, D 2 2 1%:M) :: nil) :: nil)) :: nil.
Definition h111 : handler (belief Q) (dmat Q) (ex_dat Q) := Handler d111 nil nil nil (d_of_Z (Zpos 3)) (d_of_Z (Zpos 3)) (d_of_Z (Zpos 3)) (d_of_Z (Zpos 3)).
Definition t111 (k : nat) : Z := 5 + 5 * Z.of_nat k.
Definition val111 (s : sim_meas) : ex_dat Q := ExDat (D 1 1 1%:M) (D 1 1 1%:M) (match s_peer s with Some j => j | None => 0%nat end).
Example C111_example :
  0 <= t111 0 /\ (forall i j, (i < j)%coq_nat /\ (j < 4)%coq_nat -> t111 i < t111 j) /\ t111 3 < span_max /\
  (forall s, shaped 1 1 (x_z (val111 s)) /\ shaped 1 1 (x_R (val111 s))) /\ (forall s j, s_ty s = JOINT -> s_peer s = Some j -> x_peer (val111 s) = j) /\
  Spec_Handler.wf (t111 0) (t111 3) (h_dict h111) /\ typed (fun _ => 2%N) (List.seq 0 2) (h_dict h111) /\ initialised (t111 1) (h_dict h111) /\
  (forall id, (id < 2)%coq_nat -> exists i, d_find id (h_dict h111) = Some i /\ i_enabled i = true) /\
  denotes_ns (h_max h111) (3 * Spec_Time.giga) /\ t111 3 - t111 0 <= 3 * Spec_Time.giga < span_max /\
  List.length (simulation 1 2 false true 2 4) = 12%nat.
Proof.
split; first by [].
split; first by move=> i j [L _]; rewrite /t111; lia.
split; first by [].
split; first by move=> s; split.
split; first by move=> s j _ E; rewrite /val111 E.
split.
  split; first by repeat constructor => //=; intuition congruence.
  by move=> e [<-|[<-|[]]]; (split; [split; [exact: sorted68|move=> x [<-|[]]; rewrite /t111; simpl; lia]|split; [|by apply: List.NoDup_cons; [case|exact: List.NoDup_nil]]]);
    move=> j b [[_ <-]|[]]; (split; [exact: sorted68|move=> x [<-|[]]; rewrite /t111; simpl; lia]).
split.
  split=> // id i E; have := find_In E.
  by case=> [[<- <-]|[[<- <-]|[]]]; (split; [move=> k b E1; have [-> ->] := at68 E1; by []|]); move=> j k f E1; have [_ [_ ->]] := ccf68 E1.
split.
  move=> e [<-|[<-|[]]]; (split; [exists (Zpos 5); eexists; reflexivity|split]).
  - by move=> k L; case E: bel_at => [w|//]; have [Ek _] := at68 E; move: L; rewrite Ek.
  - by move=> j k L; case E: ccf_at => [w|//]; have [_ [Ek _]] := ccf68 E; move: L; rewrite Ek.
  - by move=> k L; case E: bel_at => [w|//]; have [Ek _] := at68 E; move: L; rewrite Ek.
  - by move=> j k L; case E: ccf_at => [w|//]; have [_ [Ek _]] := ccf68 E; move: L; rewrite Ek.
split; first by case=> [|[|id]] L; [eexists; split; reflexivity..|exfalso; lia].
split; first exact: C21_denotes_example.
by split.
Qed.
End Example111.
Print Assumptions C111_only_newer_count.
Print Assumptions C111_discarded.
Print Assumptions C111_any_order.
Print Assumptions C111_delays_irrelevant.
Print Assumptions C111_what_counts.
