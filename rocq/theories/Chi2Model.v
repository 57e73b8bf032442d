(** Model of the chi-square threshold table.
    Source: /repo/source/ikf/source/Estimator/NormalizedInnovationSquared.cpp (cited as NIS). *)
From Coq Require Import ZArith List Bool.
From Flocq Require Import IEEE754.BinarySingleNaN.
From Verif Require Import Outcome TimestampModel DoubleModel.
Import ListNotations.
Local Open Scope Z_scope.
Local Open Scope outcome_scope.

(** NIS 107-133 (the table compiled in, since SMALL_NIS_LOOKUP_TABLE is 1 in the header, line 29):
    confidence in per mille -> thresholds.  The decimal literals are kept exactly, in units of 1e-5. *)
Definition lookup : list (Z * list Z) := [
  (380,
   [ 24587; 95607; 177680; 263860; 352240; 442030; 532800; 624330; 716450; 809050; 902050; 995400; 1089040;
     1182940; 1277070; 1371410; 1465940; 1560630; 1655480; 1750470; 1845590; 1940830; 2036180; 2131630;
     2227190; 2322830; 2418560; 2514380; 2610260; 2706230; 2802260; 2898350; 2994510; 3090730; 3187000;
     3283330; 3379710; 3476140; 3572620; 3669140; 3765710; 3862320; 3958980; 4055670; 4152400; 4249160;
     4345970; 4442800; 4539670; 4636580 ]);
  (500,
   [ 45494; 138630; 236600; 335670; 435150; 534810; 634580; 734410; 834280; 934180; 1034100; 1134030;
     1233980; 1333930; 1433890; 1533850; 1633820; 1733790; 1833770; 1933740; 2033720; 2133700; 2233690;
     2333670; 2433660; 2533650; 2633630; 2733620; 2833610; 2933600; 3033590; 3133590; 3233580; 3333570;
     3433560; 3533560; 3633550; 3733550; 3833540; 3933530; 4033530; 4133520; 4233520; 4333520; 4433510;
     4533510; 4633500; 4733500; 4833500; 4933490 ]);
  (680,
   [ 98895; 227890; 350590; 469540; 586080; 700920; 814480; 927040; 1038800; 1149880; 1260390; 1370410;
     1480010; 1589220; 1698100; 1806680; 1914980; 2023040; 2130860; 2238480; 2345900; 2453150; 2560220;
     2667140; 2773920; 2880550; 2987060; 3093440; 3199710; 3305870; 3411930; 3517880; 3623740; 3729520;
     3835200; 3940810; 4046330; 4151780; 4257160; 4362470; 4467710; 4572890; 4678000; 4783050; 4888050;
     4992990; 5097880; 5202710; 5307490; 5412230 ]);
  (950,
   [ 384150; 599150; 781470; 948770; 1107050; 1259160; 1406710; 1550730; 1691900; 1830700; 1967510; 2102610;
     2236200; 2368480; 2499580; 2629620; 2758710; 2886930; 3014350; 3141040; 3267060; 3392440; 3517250;
     3641500; 3765250; 3888510; 4011330; 4133710; 4255700; 4377300; 4498530; 4619430; 4739990; 4860240;
     4980180; 5099850; 5219230; 5338350; 5457220; 5575850; 5694240; 5812400; 5930350; 6048090; 6165620;
     6282960; 6400110; 6517080; 6633860; 6750480 ]);
  (997,
   [ 880750; 1161830; 1393140; 1601430; 1795760; 1980470; 2158010; 2329970; 2497410; 2661080; 2821560;
     2979290; 3134610; 3287800; 3439090; 3588680; 3736720; 3883350; 4028690; 4172830; 4315880; 4457900;
     4598970; 4739150; 4878490; 5017050; 5154870; 5291990; 5428450; 5564290; 5699530; 5834200; 5968330;
     6101940; 6235070; 6367720; 6499920; 6631680; 6763030; 6893970; 7024540; 7154720; 7284560; 7414040;
     7543190; 7672020; 7800530; 7928750; 8056670; 8184300 ])].

(** std::map::find. *)
Fixpoint map_find (k : Z) (m : list (Z * list Z)) : option (list Z) :=
  match m with
  | [] => None
  | (k', v) :: r => if k =? k' then Some v else map_find k r
  end.

(** NIS 80: int p_ = round(p*1000). *)
Definition permille (p : double) : outcome Z := d_to_int32 (d_round (d_mul p (d_of_Z 1000))).

(** NIS 78-94: chi2inv; thresholds in units of 1e-5.  In the else branch line 88 dereferences [iter], which is
    lookup.end() there, before the element found by nearest_key (65-76) can be used. *)
Definition chi2inv (p : double) (df : nat) : outcome Z :=
  let! p_ := permille p in
  match map_find p_ lookup with
  | Some v => if (df <? length v)%nat then Ok (nth df v 0) else Ok 0
  | None => UB EndIterDeref
  end.
