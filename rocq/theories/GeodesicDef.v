(** C15: the documented defaults of Geodesic (geodesic.py:64-92, 205-211). *)
From Coq Require Import String Reals List ZArith Lra Lia Bool.
From Verif Require Import Base DualModel GeoUtilsModel FantasyModel FantasyProofs FantasyProofs2 GeodesicModel GeodesicProofs.
Import ListNotations.
Open Scope R_scope.
(** without keyword arguments: 50 second-order steps of size 0.5 with coupling 1 *)
Lemma default_trajectory m prms pos mom tl cart geo : mk_geodesic m prms pos mom tl cart default_kwargs = Ok geo ->
  exists call g l, resolve_metric m = Ok call /\ call (resolve_params m prms) = Ok g /\ length (snd (geo_trajectory geo)) = 50%nat /\
  chain (ord_2 (metricfun_of g) 1 (1/2)) (mkQ4 (geo_position geo) (geo_momentum geo) (geo_position geo) (geo_momentum geo)) l /\ snd (geo_trajectory geo) = map (present cart) l.
Proof.
  intros H. apply geodesic_spec in H. destruct H as (call & g & E1 & E2 & _ & _ & E). destruct (geo_trajectory geo) as [steps rows].
  apply trajectory_spec in E. destruct E as (_ & L & _ & l & C & R). exists call, g, l. split; [exact E1|]. split; [exact E2|]. split; [exact L|]. split; [exact C|exact R].
Qed.
