(** The joint observation given by a measurement function h (iterated update) of IsolatedKalmanFilterHandler.
    Source: /repo/source/ikf/source/EstimatorHandler/IsolatedKalmanFilterHandler.cpp (IKH); the inherited parts, parameters
    and simplifications are those of IsoModel.v.  Further parameters: the user's measurement function [h] and the belief
    class's [plus_jacobian] (IBelief.hpp is meant to be derived from; LinearBelief's own is [bel_plus_jacobian]).
    The belief's boxplus and boxminus are those of IBelief (vector addition and difference). *)
From Coq Require Import ZArith List Bool Arith.
From mathcomp Require Import all_ssreflect all_algebra.
From Verif Require Import Outcome DoubleModel BufModel HorizonModel MeasModel HandlerModel DMat KFModel BeliefModel IsoModel DPModel.
Set Implicit Arguments. Unset Strict Implicit. Unset Printing Implicit Defensive.
Import GRing.Theory Num.Theory.
Local Open Scope outcome_scope.

(** std::map::erase by key *)
Definition smap_erase {V} (k : nat) (l : list (nat * V)) : list (nat * V) := List.filter (fun e => negb (fst e =? k)%nat) l.

Section HObs.
Variable F : realFieldType.
Variable junk : forall n, 'M[F]_n -> 'M[F]_n.
Notation dmat := (dmat F).
Notation belief := (belief F).
Notation inst := (inst belief dmat).
Notation dict := (dict belief dmat).
Notation bels := (list (nat * belief)).
Variable is_psd : dmat -> bool.
Variable nearest : dmat -> dmat.
Variable predict : nat -> Z -> inst -> outcome (inst * bool).
Variable eps0 : F.
(** IIsolatedKalmanFilter.hpp: h_joint maps beliefs, IDs and z to (dict_H, residual) *)
Variable h : bels -> list nat -> dmat -> list (nat * dmat) * dmat.
Variable plus_jacobian : belief -> dmat -> dmat.
(** KalmanFilter.hpp 49-57: num_iter and tol_eps of CorrectionCfg_t *)
Variable num_iter : nat.
Variable tol : F.

(** ApplyObsResult_t (Measurement/MeasData.hpp): status and residual *)
Record obs_res := ObsRes { o_status : status; o_residual : option dmat }.

(** IKH 398-409: the beliefs handed to h: the moved ones, then the fixed ones *)
Definition full_beliefs (bidx bs : bels) : bels :=
  List.fold_left (fun m e => if b_fixed (snd e) then smap_insert (fst e) (snd e) m else m) bs bidx.
(** IKH 412-417: remove the Jacobians of the fixed beliefs *)
Definition drop_fixed (bs : bels) (dH : list (nat * dmat)) : list (nat * dmat) :=
  List.fold_left (fun m e => if b_fixed (snd e) then smap_erase (fst e) m else m) bs dH.
(** IKH 512-541: compute_state_error (the recomputation of es_dim when it is 0 yields 0 again) *)
Definition state_error (bs bidx : bels) (es : nat) : outcome dmat :=
  let! (e, _) := ofold (fun s e => if ~~ b_fixed (snd e) then
                     match smap_find (fst e) bidx with
                     | Some b =>
                         let! x := bel_boxminus b (snd e) in
                         let! m := dset_block (fst s) (snd s) 0 (bel_dim (snd e)) 1 x in
                         Ok (m, (snd s + bel_dim (snd e))%nat)
                     | None => Abort OutOfRangeException
                     end
                   else Ok s) (dzero F es 1, 0%nat) bs in
  Ok e.
(** IKH 543-566: compute_state_error_Jacobian *)
Definition state_jacobian (bidx : bels) (ex : dmat) (es : nat) : outcome dmat :=
  let! (J, _) := ofold (fun s e => if ~~ b_fixed (snd e) then
                     let di := bel_dim (snd e) in
                     let! x := dblock ex (snd s) 0 di 1 in
                     let! J := dset_block (fst s) (snd s) (snd s) di di (plus_jacobian (snd e) (dscale (-1)%R x)) in
                     Ok (J, (snd s + di)%nat)
                   else Ok s) (deye F es es, 0%nat) bidx in
  Ok J.
(** IKH 456-461: move the nominal states *)
Definition move_beliefs (bidx : bels) (dx : dmat) : outcome bels :=
  let! (l, _) := ofold (fun s e =>
                     let di := bel_dim (snd e) in
                     let! x := dblock dx (snd s) 0 di 1 in
                     let! b := bel_boxplus x (snd e) in
                     Ok (fst s ++ [:: (fst e, b)], (snd s + di)%nat)) (nil, 0%nat) bidx in
  Ok l.
(** IKH 466-472 *)
Definition small (dx : dmat) : bool := all (fun i => (`|entry dx i 0| <= tol)%R) (iota 0 (drows dx)).

(** the variables of the loop IKH 387-479 that live longer than one iteration *)
Record istate := IState { s_bel : bels; s_H : dmat; s_K : dmat; s_J : dmat; s_P : dmat; s_r : dmat }.
Inductive iout := Return (o : obs_res) | Iterated (s : istate) (dx : dmat).
(** IKH 394-461: the body of the loop up to the movement of the nominal states; [stk] is the virtual stack_H (IKH 45-63 in this handler,
    DecoupledPropagationHandler.cpp 30-57 in the decoupled one) *)
Definition iterate_gen (stk : list (nat * dmat) -> outcome dmat) (bs : bels) (IDs : list nat) (R z Sapri : dmat) (es : nat) (cfg : corr_cfg F) (iter : nat) (s : istate) : outcome iout :=
  let (dH, r0) := h (full_beliefs (s_bel s) bs) IDs z in
  let! H := stk (drop_fixed bs dH) in
  if ~~ check_dim_meas H R r0 Sapri then Ok (Return (ObsRes DISCARED None)) else
  let! (e, J, r) := (if (0 <? iter)%nat then
      let! e := state_error bs (s_bel s) es in
      let! J := state_jacobian (s_bel s) e es in
      let! Je := dmul J e in let! HJe := dmul H Je in
      let! r := dadd r0 HJe in Ok (e, J, r)
    else Ok (dzero F es 1, s_J s, r0)) in
  let! JS := dmul J Sapri in let! P := dmul JS (dtr J) in
  let! HP := dmul H P in let! a := dmul HP (dtr H) in let! S1 := dadd a R in
  let! Sm := stabilize_covariance S1 (cfg_eps cfg) in
  let! out := (if use_outlier_rejection cfg then omap negb (check_NIS junk Sm r (confidence_interval cfg)) else Ok false) in
  if out then Ok (Return (ObsRes REJECTED (Some r))) else
  let! Si := dinv junk Sm in
  let! p := dmul P (dtr H) in let! K := dmul p Si in
  let! Kr := dmul K r in let! Je := dmul J e in let! dx := dsub Kr Je in
  let! b := move_beliefs (s_bel s) dx in
  Ok (Iterated (IState b H K J P r) dx).
(** IKH 392-479: the loop; the result carries the value of iter on exit *)
Fixpoint iterations_gen (stk : list (nat * dmat) -> outcome dmat) (n : nat) (bs : bels) (IDs : list nat) (R z Sapri : dmat) (es : nat) (cfg : corr_cfg F) (iter : nat) (s : istate)
    : outcome (obs_res + istate * nat) :=
  match n with
  | O => Ok (inr (s, iter))
  | S n =>
      let! o := iterate_gen stk bs IDs R z Sapri es cfg iter s in
      match o with
      | Return r => Ok (inl r)
      | Iterated s' dx => if (0 <? iter)%nat && small dx then Ok (inr (s', iter)) else iterations_gen stk n bs IDs R z Sapri es cfg (S iter) s'
      end
  end.
Definition iterate := iterate_gen (@stack_H F).
Definition iterations := iterations_gen (@stack_H F).
(** IKH 481-503: the a posteriori covariance *)
Definition posterior (bs : bels) (es : nat) (R : dmat) (cfg : corr_cfg F) (iter : nat) (s : istate) : outcome dmat :=
  let! KH := dmul (s_K s) (s_H s) in
  let! U := dsub (deye F es es) KH in
  let! Sp := (if use_Josephs_form cfg then
      let! u := dmul U (s_P s) in let! v := dmul u (dtr U) in
      let! w := dmul (s_K s) R in let! x := dmul w (dtr (s_K s)) in dadd v x
    else dmul U (s_P s)) in
  let! Sp := (if (1 <? iter)%nat then
      let! e := state_error bs (s_bel s) es in
      let! L := state_jacobian (s_bel s) e es in
      let! a := dmul L Sp in dmul a (dtr L)
    else Ok Sp) in
  let! Sp := (if nummerical_stabilization cfg then stabilize_covariance Sp (cfg_eps cfg) else Ok Sp) in
  Ok (if is_psd Sp then Sp else nearest Sp).
(** IKH 505-509: the moved means are assigned to the collected beliefs *)
Definition set_means (bidx bs : bels) : bels :=
  List.map (fun e => match smap_find (fst e) bidx with Some b => (fst e, bel_set_mean (b_mean b) (snd e)) | None => e end) bs.

(** IKH 361-510: process_observation; [inr] carries Sigma_apos, the collected beliefs with their new means, es_dim and the residual *)
Definition process_observation_gen (stk : dict -> list (nat * dmat) -> outcome dmat) (R z : dmat) (t : Z) (IDs : list nat) (cfg : corr_cfg F) (d : dict)
    : outcome (dict * (obs_res + dmat * bels * nat * dmat)) :=
  let! (d, bs) := get_dict_bel predict IDs t d in
  if bs is nil then Ok (d, inl (ObsRes OUTOFORDER None)) else
  let! mean := stack_mean bs in
  let! Sapri := stack_Sigma bs t d in
  let! Sapri := stabilize_covariance Sapri eps0 in
  let bidx := List.filter (fun e => ~~ b_fixed (snd e)) bs in
  let es := List.fold_left (fun n e => (n + bel_dim (snd e))%nat) bidx 0%nat in
  let! o := iterations_gen (stk d) num_iter bs IDs R z Sapri es cfg 0 (IState bidx (dempty F) (dempty F) (deye F es es) Sapri (dempty F)) in
  match o with
  | inl r => Ok (d, inl r)
  | inr (s, iter) =>
      let! Sp := posterior bs es R cfg iter s in
      Ok (d, inr (Sp, set_means (s_bel s) bs, es, s_r s))
  end.
Definition process_observation := process_observation_gen (fun _ => @stack_H F).
(** IKH 331-359: apply_observation(R, z, t, h, IDs, cfg).  The collected beliefs are the objects stored at t, so their new
    means are already in place while the factors are corrected; nothing reads them before correct_beliefs_implace stores
    mean and covariance together, so the model stores both there. *)
Definition apply_observation_h (R z : dmat) (t : Z) (IDs : list nat) (cfg : corr_cfg F) (d : dict) : outcome (dict * obs_res) :=
  let! (d, o) := process_observation R z t IDs cfg d in
  match o with
  | inl r => Ok (d, r)
  | inr (Sp, bs, es, r) =>
      let! d := write_joint junk Sp (dzero F es 1) bs t d in
      Ok (d, ObsRes PROCESSED (Some r))
  end.
End HObs.
