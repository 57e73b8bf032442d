(** C68: isolated filter instances behind the central handler: the arrival order of delayed measurements does not matter and no
    call fails. *)
From Coq Require Import ZArith List Bool Arith Lia Permutation Sorted.
From Flocq Require Import IEEE754.BinarySingleNaN.
From mathcomp Require Import all_ssreflect all_algebra.
From Verif Require Import Outcome Spec_Time DoubleModel BufModel Spec_Buf BufProofs HorizonModel HorizonProofs MeasModel HandlerModel Spec_Handler ClockProofs ReplayProofs ArrivalProofs WindowProofs Props_Buffers Props_Handler2 Chi2Model Props_Chi2 DMat KFModel BeliefModel IsoModel EstModel Spec_Est EstProofs.
Set Implicit Arguments. Unset Strict Implicit. Unset Printing Implicit Defensive.
Import GRing.Theory Num.Theory.
Local Open Scope outcome_scope.
Local Open Scope ring_scope.

(** the outlier test is off, or its confidence is one of the tabulated ones *)
Definition gate_tabulated (F : realFieldType) (cfg : corr_cfg F) : Prop :=
  use_outlier_rejection cfg = false \/ exists k, means_permille (confidence_interval cfg) k /\ List.In k tabulated.

Section C68.
Variable F : realFieldType.
Variable junk : forall n, 'M[F]_n -> 'M[F]_n.
Variable P : Type.
Notation dict := (dict (belief F) (dmat F)).
Notation handler := (handler (belief F) (dmat F) P).
Notation meas := (meas P).
Variable is_psd : dmat F -> bool.
Variable nearest : dmat F -> dmat F.
Variable eps0 : F.
Variable u : models F P.
Variable n : nat -> nat.
Variable reg : list nat.

Lemma est_status hor d m d' s : est junk hor is_psd nearest eps0 u d m = Ok (d', s) -> s <> OUTOFORDER.
Proof.
rewrite /est; case: (m_ty m); first by case=> _ <-.
- rewrite /est_propagate /at_inst; case: d_find => // i; case: get_before_t => [[ta ba]|]; last by case=> _ <-.
  by case: u_prop => [[mb Phi] Q]; case: iso_propagate_bel => //= -[i' ok] [_ <-].
- rewrite /est_private /at_inst; case: d_find => // i; case: u_priv => [[H R] z]; case: iso_private => //= -[i' ok] [_ <-]; by case: ok.
- rewrite /est_joint; case: u_joint => [[dH z] R]; case: apply_observation_z => //= -[i' ok] [_ <-]; by case: ok.
Qed.
Lemma est_contract hor hz wa wb tmax slack fallback : clock tmax slack -> (forall k (A : 'M[F]_k), exists B : 'M[F]_k, nearest (DM A) = DM B) -> gate_tabulated (u_cfg u) ->
  denotes_ns hor hz -> Z.le Z0 hz -> Z.lt hz span_max -> Z.le Z0 wa -> Z.lt wb tmax -> Z.le (wb - wa) (hz - slack) ->
  contract wa wb (@typed F n reg) (@okm F P u n reg) (deleg_with junk hor is_psd nearest eps0 u fallback) /\
  forall d m, Spec_Handler.wf wa wb d -> @typed F n reg d -> Z.le wa (m_t m) /\ Z.le (m_t m) wb -> @okm F P u n reg m ->
    Ok (deleg_with junk hor is_psd nearest eps0 u fallback d m) = est junk hor is_psd nearest eps0 u d m /\
    snd (deleg_with junk hor is_psd nearest eps0 u fallback d m) <> OUTOFORDER.
Proof.
move=> Ck Hn G0 Dn H0 H1 A0 B1 L.
have G : gate_ok u.
  case: G0 => [X|[k [M I]]]; first by left.
  by right=> df; have [X _] := C25_safe_iff_tabulated _ _ df M; exact: X.
have Run d m : Spec_Handler.wf wa wb d -> @typed F n reg d -> Z.le wa (m_t m) /\ Z.le (m_t m) wb -> @okm F P u n reg m -> exists d' s,
  deleg_with junk hor is_psd nearest eps0 u fallback d m = (d', s) /\ est junk hor is_psd nearest eps0 u d m = Ok (d', s) /\ @outcome_ok F n reg wa wb (m_t m) d d' /\ s <> DISCARED /\
   forall d2, Spec_Handler.wf wa wb d2 -> @typed F n reg d2 -> same d d2 -> exists d2', est junk hor is_psd nearest eps0 u d2 m = Ok (d2', s) /\ same d' d2'.
  move=> W T [L1 L2] O; have [d' [s [E [X1 [X2 X3]]]]] := est_ok junk is_psd eps0 G Ck Dn H0 H1 A0 B1 L Hn W T L1 L2 O.
  by exists d', s; rewrite /deleg_with E.
split; first split.
- by move=> d d' T; exact: typed_part.
- by move=> d m W T L0 O; have [d' [s [-> [_ [[W' [T' _]] _]]]]] := Run _ _ W T L0 O.
- by move=> d m W T L0 O; have [d' [s [-> [_ [[_ [_ O']] _]]]]] := Run _ _ W T L0 O.
- move=> d d2 m W T W2 T2 L0 O S; have [d' [s [-> [_ [_ [_ X]]]]]] := Run _ _ W T L0 O.
  by have [d2' [E2 S2]] := X _ W2 T2 S; have [e' [s' [-> [E2' _]]]] := Run _ _ W2 T2 L0 O; move: E2'; rewrite E2 => -[<- <-].
- by move=> d m W T L0 O; have [d' [s [-> [_ [_ [X _]]]]]] := Run _ _ W T L0 O.
move=> d m W T L0 O; have [d' [s [-> [E _]]]] := Run _ _ W T L0 O; split=> //; exact: est_status E.
Qed.

Notation del hor fallback := (deleg_with junk hor is_psd nearest eps0 u fallback).
Theorem C68_arrival_order_irrelevant (wa wb lo hz hzo tmax slack : Z) (h : handler) (m0 : meas) (rest inorder : list meas) :
  clock tmax slack ->
  (forall k (A : 'M[F]_k), exists B : 'M[F]_k, nearest (DM A) = DM B) -> gate_tabulated (u_cfg u) ->
  Spec_Handler.wf wa wb (h_dict h) -> typed n reg (h_dict h) -> initialised lo (h_dict h) ->
  h_meas h = nil -> h_ooo h = nil -> h_redo h = nil ->
  denotes_ns (h_max h) hz -> Z.le Z0 hz /\ Z.lt hz span_max -> denotes_ns (h_ooo_max h) hzo -> Z.le Z0 hzo /\ Z.lt hzo span_max ->
  Z.le Z0 wa -> Z.le wa lo -> Z.lt wb tmax -> Z.le (wb - wa) (hz - slack) ->
  (forall m, List.In m (m0 :: rest) -> okm u n reg m /\ (Z.le lo (m_t m) /\ Z.le (m_t m) wb) /\ exists i, d_find (m_id m) (h_dict h) = Some i /\ i_enabled i = true) ->
  (forall m, List.In m rest -> Z.lt (m_t m0 + slack) (m_t m)) ->
  stable_sort (m0 :: rest) inorder ->
  exists h1 h2,
    (forall fallback, process_all (del (h_max h) fallback) h (m0 :: rest) = Ok h1) /\
    (forall fallback, process_all (del (h_max h) fallback) h inorder = Ok h2) /\
    same (h_dict h1) (h_dict h2) /\ h_meas h1 = List.map (fun m => (m_t m, m)) inorder /\ h_meas h2 = h_meas h1 /\
    Spec_Handler.wf wa wb (h_dict h1) /\ typed n reg (h_dict h1).
Proof.
move=> Ck Hn G W T I0 Em Eo Er Dn [H0 H1] Dno [Ho0 Ho1] A0 AL B1 L Hm Old St.
have K f := @est_contract (h_max h) hz wa wb tmax slack f Ck Hn G Dn H0 H1 A0 B1 L.
set f0 := fun (d : dict) (_ : meas) => (d, REJECTED).
have [C N] := K f0.
have Pr : processable (typed n reg) (okm u n reg) (del (h_max h) f0) (h_dict h) lo wa wb hz hzo tmax slack (m0 :: rest).
  split; first move=> m /Hm [O [[L1 L2] E]].
    split; first by move=> U; move: O; rewrite /okm U => -[].
    split; first by lia.
    by split=> //; split=> //; lia.
  split; last by left=> d m Wd Td Lm Om; have [] := N d m Wd Td Lm Om.
  by move=> x y /Hm [_ [Lx _]] /Hm [_ [Ly _]]; lia.
have Rg (z : Z) : Z.le Z0 z -> Z.lt z span_max -> Z.le Z0 z /\ Z.lt z span_max by [].
have [h1 [h2 [E1 [E2 [Sm [M1 [M2 _]]]]]]] := C42_arrival_order_irrelevant _ _ _ _ _ _ _ _ _ _ _ _ _ _ _ _ _ Ck C W T I0 Em Eo Er Dn (Rg _ H0 H1) Dno (Rg _ Ho0 Ho1) (Z.le_trans _ _ _ A0 AL) Pr Old St.
have Ag f d m : Spec_Handler.wf wa wb d -> typed n reg d -> Z.le wa (m_t m) /\ Z.le (m_t m) wb -> okm u n reg m -> del (h_max h) f d m = del (h_max h) f0 d m.
  by move=> Wd Td Lm Om; have [_ N'] := K f; have [E' _] := N' d m Wd Td Lm Om; have [E0 _] := N d m Wd Td Lm Om; apply: EigenProofs.Ok_inj; rewrite E' E0.
have [r [Ei [Pm Oldr]]] := inorder_head slack _ _ _ (proj1 (clock_bounds _ _ Ck)) St Old; subst inorder.
have Prr : processable (typed n reg) (okm u n reg) (del (h_max h) f0) (h_dict h) lo wa wb hz hzo tmax slack (m0 :: r).
  have Sub x : List.In x (m0 :: r) -> List.In x (m0 :: rest).
    by case=> [->|Hx]; [left|right; exact: (Permutation_in _ (Permutation_sym Pm) Hx)].
  case: Pr => [X1 [X2 X3]]; split; first by move=> m /Sub /X1.
  by split; [move=> x y /Sub Hx /Sub Hy; exact: X2|case: X3 => [X3|X3]; [left|right=> x y /Sub Hx /Sub Hy; exact: X3]].
have R1 f := agreeing_runs _ _ _ _ _ _ _ _ _ _ _ _ _ _ _ _ _ Ck C (Ag f) W T I0 Em Eo Er Dn (Rg _ H0 H1) Dno (Rg _ Ho0 Ho1) (Z.le_trans _ _ _ A0 AL) Pr Old.
have R2 f := agreeing_runs _ _ _ _ _ _ _ _ _ _ _ _ _ _ _ _ _ Ck C (Ag f) W T I0 Em Eo Er Dn (Rg _ H0 H1) Dno (Rg _ Ho0 Ho1) (Z.le_trans _ _ _ A0 AL) Prr Oldr.
exists h1, h2; split.
  by move=> f; have [x [X1 [X2 _]]] := R1 f; rewrite X2; move: X1; rewrite E1 => -[->].
split; first by move=> f; have [x [X1 [X2 _]]] := R2 f; rewrite X2; move: X1; rewrite E2 => -[->].
split=> //; split=> //; split=> //.
by have [x [X1 [_ X3]]] := R1 f0; move: X1 X3; rewrite E1 => -[<-].
Qed.
End C68.

(** ** a concrete case: instance 3 (position and velocity) and instance 7 (one state), a propagation, private and joint
    measurements, the second and third out of order *)
Section Example68.
Notation Q := rat_realFieldType.
Notation D k l := (@DM Q k l).
Definition n68 (id : nat) : nat := if Nat.eqb id 3 then 2%N else 1%N.
Definition u68 : models Q unit := Models
  (fun id _ ta tb mean => let k := n68 id in (mean, D k k 1%:M, D k k 1%:M))
  (fun id _ => (D 1 (n68 id) (const_mx 1), D 1 1 1%:M, D 1 1 0))
  (fun id _ => ((3%nat, D 1 2 (const_mx 1)) :: (7%nat, D 1 1 (const_mx (-1))) :: nil, D 1 1 0, D 1 1 1%:M))
  (CorrCfg true true false (conf (Zpos 997)) 0).
Definition bel68 (k : nat) : belief Q := Bel (D k 1 0) (D k k 1%:M) (Zpos 5) false false true.
Definition d68 : dict (belief Q) (dmat Q) :=
  (3%nat, Inst true ((Zpos 5, bel68 2) :: nil) ((7%nat, (Zpos 5, D 2 1 (const_mx 1)) :: nil) :: nil)) ::
  (7%nat, Inst true ((Zpos 5, bel68 1) :: nil) ((3%nat, (Zpos 5, D 1 1 1%:M) :: nil) :: nil)) :: nil.
Definition h68 : handler (belief Q) (dmat Q) unit := Handler d68 nil nil nil (d_of_Z (Zpos 3)) (d_of_Z (Zpos 3)) (d_of_Z (Zpos 3)) (d_of_Z (Zpos 3)).
Definition m68 : meas unit := Meas 3%nat (Zpos 10) PROPAGATION tt.
Definition rest68 : list (meas unit) :=
  Meas 7%nat (Zpos 30) PRIVATE tt :: Meas 7%nat (Zpos 20) PROPAGATION tt :: Meas 3%nat (Zpos 20) JOINT tt :: Meas 3%nat (Zpos 20) PRIVATE tt :: nil.
Definition inorder68 : list (meas unit) := m68 ::
  Meas 7%nat (Zpos 20) PROPAGATION tt :: Meas 3%nat (Zpos 20) PRIVATE tt :: Meas 3%nat (Zpos 20) JOINT tt :: Meas 7%nat (Zpos 30) PRIVATE tt :: nil.

Lemma at68 (T : Type) (v : T) k w : get_at_t k ((Zpos 5, v) :: nil) = Some w -> k = Zpos 5 /\ w = v.
Proof. rewrite get_at_first; cbn [List.find fst]; destruct (Z.eqb_spec (Zpos 5) k) as [E|E]; cbn; [intros [= <-]; now split|discriminate]. Qed.
Lemma ccf68 (B M : Type) e (b : buf B) (v : M) j' j k w : ccf_at j k (Inst e b ((j', (Zpos 5, v) :: nil) :: nil)) = Some w -> j' = j /\ k = Zpos 5 /\ w = v.
Proof.
rewrite /ccf_at /i_ccf; cbn [assoc]; destruct (Nat.eqb_spec j' j) as [E|E] => // E1; split=> //; exact: at68 E1.
Qed.
Lemma sorted68 (T : Type) (k : Z) (v : T) : ssorted ((k, v) :: nil).
Proof. by apply: SSorted_cons; [exact: SSorted_nil|constructor]. Qed.
Example C68_example :
  (forall k (A : 'M[rat]_k), exists B : 'M[rat]_k, (fun x : dmat Q => x) (D k k A) = D k k B) /\ gate_tabulated (u_cfg u68) /\
  Spec_Handler.wf (Zpos 5) (Zpos 1000) (h_dict h68) /\ typed n68 (3%nat :: 7%nat :: nil) (h_dict h68) /\ initialised (Zpos 10) (h_dict h68) /\
  denotes_ns (h_max h68) (Z.mul (Zpos 3) Spec_Time.giga) /\
  (forall m, List.In m (m68 :: rest68) -> okm u68 n68 (3%nat :: 7%nat :: nil) m /\ (Z.le (Zpos 10) (m_t m) /\ Z.le (m_t m) (Zpos 1000)) /\
     exists i, d_find (m_id m) (h_dict h68) = Some i /\ i_enabled i = true) /\
  (forall m, List.In m rest68 -> Z.lt (m_t m68) (m_t m)) /\ stable_sort (m68 :: rest68) inorder68.
Proof.
split; first by move=> k A; exists A.
split; first by right; exists (Zpos 997); split; [vm_compute|simpl; tauto].
split.
  split; first by repeat constructor => //=; intuition congruence.
  move=> e [<-|[<-|[]]]; (split; [split; [exact: sorted68|move=> x [<-|[]]; simpl; lia]|split; [|by apply: List.NoDup_cons; [case|exact: List.NoDup_nil]]]);
    move=> j b [[_ <-]|[]]; (split; [exact: sorted68|move=> x [<-|[]]; simpl; lia]).
split.
  split=> // id i E; have := find_In E.
  by case=> [[<- <-]|[[<- <-]|[]]]; (split; [move=> k b E1; have [-> ->] := at68 E1; by []|]); move=> j k f E1; have [<- [_ ->]] := ccf68 E1.
split.
  move=> e [<-|[<-|[]]]; (split; [exists (Zpos 5); eexists; reflexivity|split]).
  - by move=> k L; case E: bel_at => [w|//]; have [Ek _] := at68 E; move: L; rewrite Ek.
  - by move=> j k L; case E: ccf_at => [w|//]; have [_ [Ek _]] := ccf68 E; move: L; rewrite Ek.
  - by move=> k L; case E: bel_at => [w|//]; have [Ek _] := at68 E; move: L; rewrite Ek.
  - by move=> j k L; case E: ccf_at => [w|//]; have [_ [Ek _]] := ccf68 E; move: L; rewrite Ek.
split; first exact: C21_denotes_example.
split.
  move=> m [<-|[<-|[<-|[<-|[<-|[]]]]]]; (split; [split; [by simpl; tauto|]|split; [simpl; lia|by eexists; split; reflexivity]]) => /=.
  - by [].
  - by exists 1%N.
  - by [].
  - split=> //; split=> //; split; first by move=> id [<-|[<-|[]]] /=; tauto.
    by exists 1%N; split=> // id X [[<- <-]|[[<- <-]|[]]].
  - by exists 1%N.
split; first by move=> m [<-|[<-|[<-|[<-|[]]]]].
split; first by repeat constructor; rewrite /mle /=; lia.
have E : chrono (m68 :: rest68) = inorder68 by [].
rewrite -E; split; first by exact: (fold_perm (m68 :: rest68) nil).
by move=> t ty; rewrite /chrono fold_slot //; constructor.
Qed.
End Example68.
Print Assumptions C68_arrival_order_irrelevant.
