(** The unbuffered estimators and their registry.
    Sources under /repo/source/ikf/source/EstimatorStd: KalmanFilterStd.cpp (KS), IsolatedKalmanFilterStd.cpp (IS),
    IKFHandlerStd.cpp (HS).
    Simplifications: matrices as in DMat.v (exact arithmetic); times are nanosecond keys; m_belief is a value or absent (the
    objects of different instances are not shared); every instance holds the one handler (m_pHandler is not null);
    is_positive_semidefinite (Eigen's eigenvalue solver) is a parameter; RTV_EXPECT_TRUE_MSG only logs; a call that throws is
    modelled by its exception, without the state it leaves behind; std::unordered_map is an association list. *)
From Coq Require Import ZArith List Bool Arith.
From Flocq Require Import IEEE754.BinarySingleNaN.
From mathcomp Require Import all_ssreflect all_algebra.
From Verif Require Import Outcome DoubleModel DMat KFModel BeliefModel EigenModel CatModel.
Set Implicit Arguments. Unset Strict Implicit. Unset Printing Implicit Defensive.
Import GRing.Theory Num.Theory.
Local Open Scope outcome_scope.

Section Std.
Variable F : realFieldType.
Variable junk : forall n, 'M[F]_n -> 'M[F]_n.
Variable garbage : forall m n, 'M[F]_(m, n).
Notation dmat := (dmat F).
Notation belief := (belief F).
Notation correction_step := (correction_step junk).
Notation dinv := (dinv junk).
Variable is_psd : dmat -> bool.                     (* utils::is_positive_semidefinite *)
Variable eps eps0 : F.                              (* CorrectionCfg_t::eps (1e-16), default of stabilize_covariance (1e-12) *)

(** KalmanFilter.hpp 49-57: a default-constructed CorrectionCfg_t *)
Definition default_cfg : corr_cfg F := CorrCfg true true true (Bdiv mode_NE (d_of_Z (Zpos 997)) (d_of_Z (Zpos 1000))) eps.

(** ** KalmanFilterStd on its belief *)
(** KS 42-52: propagate(Phi, Q, t_b) *)
Definition ks_propagate (Phi Q : dmat) (tb : Z) (b : belief) : outcome (belief * bool) :=
  if check_dim_phi_q (b_Sigma b) Phi Q && Z.ltb (b_t b) tb then
    let! Sb := covariance_propagation (b_Sigma b) Phi Q false 0%R in
    let b1 := bel_set_Sigma Sb b in
    let! m := dmul Phi (b_mean b1) in
    Ok (bel_set_t tb (bel_set_mean m b1), true)
  else Ok (b, false).
(** KS 54-68: propagate(Phi, Q, t_b, G, u, var_u); var_u is a vector *)
Definition ks_propagate_u (Phi Q : dmat) (tb : Z) (G u var_u : dmat) (b : belief) : outcome (belief * bool) :=
  if check_dim_phi_q (b_Sigma b) Phi Q && Z.ltb (b_t b) tb then
    let! pm := dmul Phi (b_mean b) in
    let! gu := dmul G u in
    let! mb := dadd pm gu in
    let! gv := dmul G var_u in
    let! gvg := dmul gv (dtr G) in
    let! Qd := dadd gvg Q in
    let! Sb := covariance_propagation (b_Sigma b) Phi Qd false 0%R in
    Ok (bel_set_t tb (bel_set_mean mb (bel_set_Sigma Sb b)), true)
  else Ok (b, false).
(** KS 70-84: private_update *)
Definition ks_private (H R z : dmat) (b : belief) : outcome (belief * bool) :=
  let! hm := dmul H (b_mean b) in
  let! r := dsub z hm in
  let! res := correction_step H R r (b_Sigma b) default_cfg in
  if ~~ rejected res then let! b' := bel_correct (delta_mean res) (Sigma_apos res) b in Ok (b', true)
  else Ok (b, false).

(** ** instances on the heap: an address denotes an IsolatedKalmanFilterStd object; addresses from [st_next] on are unused.
    The registry (id_dict) maps IDs to addresses. *)
Record sobj := SObj { so_id : nat; so_bel : option belief; so_fac : list (nat * dmat) }.
Record std := Std { st_next : nat; st_obj : nat -> sobj; st_dict : list (nat * nat) }.
Definition st_write (a : nat) (o : sobj) (s : std) : std := Std (st_next s) (fun q => if (q =? a)%nat then o else st_obj s q) (st_dict s).
(** calling through m_belief *)
Definition with_bel_of {A} (o : sobj) (f : belief -> outcome A) : outcome A :=
  match so_bel o with Some b => f b | None => UB NullDeref end.
(** KS 25-34, IS 27-29: the constructors (clone of the belief, time stamp kept; no factors) *)
Definition st_new (id : nat) (ob : option belief) (s : std) : std * nat :=
  (Std (S (st_next s)) (fun q => if (q =? st_next s)%nat then SObj id ob nil else st_obj s q) (st_dict s), st_next s).
(** KS 36: set_belief *)
Definition st_set_belief (a : nat) (b : belief) (s : std) : std :=
  let o := st_obj s a in st_write a (SObj (so_id o) (Some b) (so_fac o)) s.

(** ** the registry *)
Fixpoint sd_find (id : nat) (d : list (nat * nat)) : option nat :=
  match d with nil => None | (k, a) :: r => if (k =? id)%nat then Some a else sd_find id r end.
(** HS 39-41, 43-49: exists, get *)
Definition st_exists (id : nat) (s : std) : bool := if sd_find id (st_dict s) is Some _ then true else false.
Definition st_get (id : nat) (s : std) : option nat := sd_find id (st_dict s).
(** HS 22-28: add *)
Definition st_add (a : nat) (s : std) : std * bool :=
  if ~~ st_exists (so_id (st_obj s a)) s
  then (Std (st_next s) (st_obj s) ((so_id (st_obj s a), a) :: st_dict s), true) else (s, false).
(** HS 30-37: remove *)
Definition st_remove (id : nat) (s : std) : std * bool :=
  match st_get id s with
  | Some a => (Std (st_next s) (st_obj s) (List.filter (fun e => ~~ (fst e =? so_id (st_obj s a))%nat) (st_dict s)), true)
  | None => (s, false)
  end.

(** ** factors *)
(** IS 145-151: get_CrossCovFact *)
Fixpoint sf_get (j : nat) (l : list (nat * dmat)) : dmat :=
  match l with nil => dempty F | (k, m) :: r => if (k =? j)%nat then m else sf_get j r end.
(** IS 130-132: set_CrossCovFact *)
Fixpoint sf_set (j : nat) (m : dmat) (l : list (nat * dmat)) : list (nat * dmat) :=
  match l with nil => [:: (j, m)] | (k, x) :: r => if (k =? j)%nat then (k, m) :: r else (k, x) :: sf_set j m r end.
(** IS 185-189, 191-195: apply_propagation(Phi), apply_correction(Lambda) *)
Fixpoint sf_scale (L : dmat) (l : list (nat * dmat)) : outcome (list (nat * dmat)) :=
  match l with nil => Ok nil | (k, m) :: r => let! p := dmul L m in let! r' := sf_scale L r in Ok ((k, p) :: r') end.
Definition so_scale (L : dmat) (o : sobj) : outcome sobj := let! l := sf_scale L (so_fac o) in Ok (SObj (so_id o) (so_bel o) l).
(** IS 197-201: apply_correction(Sigma_apri, Sigma_apos) *)
Definition so_correct (Sapri Sapos : dmat) (o : sobj) : outcome sobj :=
  let! i := dinv Sapri in let! L := dmul Sapos i in so_scale L o.
(** get(ID)->... on a missing instance dereferences a null pointer *)
Definition at_id {A} (id : nat) (s : std) (f : nat -> outcome A) : outcome A :=
  match st_get id s with Some a => f a | None => UB NullDeref end.
Definition st_set_fac (id j : nat) (m : dmat) (s : std) : outcome std :=
  at_id id s (fun a => let o := st_obj s a in Ok (st_write a (SObj (so_id o) (so_bel o) (sf_set j m (so_fac o))) s)).
Definition st_get_fac (id j : nat) (s : std) : outcome dmat := at_id id s (fun a => Ok (sf_get j (so_fac (st_obj s a)))).
(** IS 134-143: set_Sigma_IJ *)
Definition st_set_Sigma (I J : nat) (Sij : dmat) (s : std) : outcome std :=
  if (I <? J)%nat then let! s := st_set_fac I J Sij s in st_set_fac J I (deye F (dcols Sij) (dcols Sij)) s
  else let Sji := dtr Sij in let! s := st_set_fac J I Sji s in st_set_fac I J (deye F (dcols Sji) (dcols Sji)) s.
(** IS 153-169: get_Sigma_IJ *)
Definition st_get_Sigma (I J : nat) (s : std) : outcome dmat :=
  let! fij := st_get_fac I J s in
  let! fji := st_get_fac J I s in
  if (dsize fij != 0%N) && (dsize fji != 0%N) then
    if (I <? J)%nat then dmul fij (dtr fji)
    else let! sji := dmul fji (dtr fij) in Ok (dtr sji)
  else Ok (dempty F).

(** ** IsolatedKalmanFilterStd: the object at address [a] *)
(** IS 35-41, 43-49: propagate *)
Definition is_propagate_with (f : belief -> outcome (belief * bool)) (Phi : dmat) (a : nat) (s : std) : outcome (std * bool) :=
  let o := st_obj s a in
  with_bel_of o (fun b =>
    let! (b', ok) := f b in
    let o' := SObj (so_id o) (Some b') (so_fac o) in
    if ok then let! o2 := so_scale Phi o' in Ok (st_write a o2 s, true) else Ok (st_write a o' s, false)).
Definition is_propagate (Phi Q : dmat) (tb : Z) := is_propagate_with (ks_propagate Phi Q tb) Phi.
Definition is_propagate_u (Phi Q : dmat) (tb : Z) (G u var_u : dmat) := is_propagate_with (ks_propagate_u Phi Q tb G u var_u) Phi.
(** IS 51-58: private_update *)
Definition is_private (H R z : dmat) (a : nat) (s : std) : outcome (std * bool) :=
  let o := st_obj s a in
  with_bel_of o (fun b =>
    let! (b', ok) := ks_private H R z b in
    let o' := SObj (so_id o) (Some b') (so_fac o) in
    if ok then let! o2 := so_correct (b_Sigma b) (b_Sigma b') o' in Ok (st_write a o2 s, true) else Ok (st_write a o' s, false)).
(** IS 172-183: stack_apri_covariance; 109-119 stack_Sigma is EigenModel's stack2, 121-128 split_Sigma is split2 *)
Definition is_stack_apri (a : nat) (b bj : belief) (J : nat) (s : std) : outcome dmat :=
  let! sij := st_get_Sigma (so_id (st_obj s a)) J s in
  if dsize sij != 0%N then stack2 garbage (b_Sigma b) (b_Sigma bj) sij
  else stack2 garbage (b_Sigma b) (b_Sigma bj) (dzero F (drows (b_Sigma b)) (dcols (b_Sigma bj))).
(** a mean is an Eigen::VectorXd: one column *)
Definition vec (A : dmat) : 'cV[F]_(drows A) := (\matrix_(i < drows A, _ < 1) entry A i 0)%R.
(** the belief behind the pointer held by the object at [a] is corrected in place *)
Definition st_correct_bel (a : nat) (dx S : dmat) (s : std) : outcome std :=
  let o := st_obj s a in
  with_bel_of o (fun b => let! b' := bel_correct dx S b in Ok (st_write a (SObj (so_id o) (Some b') (so_fac o)) s)).
Definition st_correct_fac (a : nat) (Sapri Sapos : dmat) (s : std) : outcome std :=
  let! o := so_correct Sapri Sapos (st_obj s a) in Ok (st_write a o s).
(** IS 60-106: joint_update called on the object at [a] *)
Definition is_joint (I J : nat) (Hi Hj R z : dmat) (a : nat) (s : std) : outcome (std * bool) :=
  let! _ := throw_unless (st_exists I s && st_exists J s) in
  let! _ := throw_unless (I =? so_id (st_obj s a))%nat in
  at_id J s (fun aj =>
  with_bel_of (st_obj s a) (fun bi =>
  with_bel_of (st_obj s aj) (fun bj =>
  let! _ := throw_unless (Z.eqb (b_t bi) (b_t bj)) in
  let! H := horcat garbage Hi Hj in
  let! m := vertcat_vec garbage (vec (b_mean bi)) (vec (b_mean bj)) in
  let! hm := dmul H m in
  let! r := dsub z hm in
  let! Sk := is_stack_apri a bi bj J s in
  let! Sg := stabilize_covariance Sk eps0 in
  let! res := correction_step H R r Sg default_cfg in
  if ~~ rejected res then
    let! _ := throw_unless (is_psd (Sigma_apos res)) in
    let di := drows (b_Sigma bi) in
    let dj := drows (b_Sigma bj) in
    let! (ij, Sij) := split2 (Sigma_apos res) di dj in
    let! s := st_correct_fac a (b_Sigma bi) ij.1 s in
    let! s := st_correct_fac aj (b_Sigma bj) ij.2 s in
    let! s := st_set_Sigma I J Sij s in
    let! di' := dblock (delta_mean res) 0 0 di 1 in
    let! dj' := dblock (delta_mean res) (drows (delta_mean res) - dj) (dcols (delta_mean res) - 1) dj 1 in
    let! s := st_correct_bel a di' ij.1 s in
    let! s := st_correct_bel aj dj' ij.2 s in
    Ok (s, true)
  else Ok (s, false)))).
End Std.
