(** What the gradient theorem assumes. *)
From Coq Require Import Reals List Bool Arith.
From Verif Require Import ProgressModel ProgressSpec Base DemandModel DemandProofs DemandShares SupplyModel DerivModel MicroModel NestModel
  GradModel.
Local Open Scope R_scope.

(** Linear solvers and inverters that are exact when they do not report a replacement. *)
Definition exact_solve (solve : nat -> solver) : Prop :=
  forall J A b, snd (solve J A b) = false ->
  forall j, (j < J)%nat -> sumn J (fun k => A j k * fst (solve J A b) k) = b j.
Definition exact_inverse (inverse : nat -> (nat -> nat -> R) -> (nat -> nat -> R) * bool) : Prop :=
  forall J A, snd (inverse J A) = false ->
  forall j k, (j < J)%nat -> (k < J)%nat ->
    sumn J (fun a => fst (inverse J A) j a * A a k) = (if Nat.eqb j k then 1 else 0) /\
    sumn J (fun a => A j a * fst (inverse J A) a k) = (if Nat.eqb j k then 1 else 0).

Definition products (e : economy_market) : nat := mJ (fm (e_market e)).

(** Predicted shares are observed shares. *)
Definition matched (e : economy_market) (v : point) (delta : nat -> R) : Prop :=
  let M := market_of e v delta in
  forall j, (j < products e)%nat -> sumn (fI M) (fun i => probs (fm M) delta (mu_at e v) i j * fw M i) = e_shares e j.

(** A market whose parameters are usable and whose X2 are what formulations say. *)
Record regular (e : economy_market) (v : point) : Prop := {
  reg_market : valid_market (fm (market_of e v (fun _ => 0)));
  reg_agents : (forall i, (i < fI (e_market e))%nat -> 0 <= fw (e_market e) i) /\
               exists i, (i < fI (e_market e))%nat /\ 0 < fw (e_market e) i;
  reg_rho : mH (fm (e_market e)) <> O -> forall h, (h < mH (fm (e_market e)))%nat -> 0 <= v_rho v (e_group e h);
  reg_K2 : fK2 (e_market e) = r_K2 (e_tastes e);
  reg_X2 : forall j k, r_X2 (e_tastes e) j k =
    if uses (fX2 (e_market e) k) then ev (fX2 (e_market e) k) j (var0 (e_market e) j) else X2_0 (e_market e) j k
}.

(** A parameter in theta of this market: in range, for rho strictly between zero and one, and governing all groups if
    there is one rho. *)
Definition in_theta (ec : economy) (e : economy_market) (v : point) (p : parameter) : Prop :=
  match p with
  | Nonlinear (SigmaParameter k c) => (k < r_K2 (e_tastes e))%nat /\ (c < r_K2 (e_tastes e))%nat
  | Nonlinear (PiParameter k d) => (k < r_K2 (e_tastes e))%nat /\ (d < r_D (e_tastes e))%nat
  | Rho r => mH (fm (e_market e)) <> O /\ 0 < v_rho v r < 1 /\
             (rho_multi (fm (e_market e)) = false -> forall h, (h < mH (fm (e_market e)))%nat -> e_group e h = r)
  | Beta k => (k < ec_K1 ec)%nat /\ fK1 (e_market e) = ec_K1 ec /\ ec_eliminated_beta ec k = false
  | Gamma k => (k < ec_K3 ec)%nat /\ ec_eliminated_gamma ec k = false
  end.

(** Rows and surveys refer to products and agents of markets. *)
Definition refers (ec : economy) : Prop :=
  (forall n, (n < ec_N ec)%nat ->
     (fst (ec_row ec n) < ec_T ec)%nat /\ (snd (ec_row ec n) < products (ec_market ec (fst (ec_row ec n))))%nat) /\
  (forall q s sv, In (s, sv) (ec_parts ec q) ->
     (s < ec_T ec)%nat /\ s_J sv = products (ec_market ec s) /\ s_I sv = fI (e_market (ec_market ec s)) /\
     (forall i, (i < s_I sv)%nat -> s_agent_weight sv i = fw (e_market (ec_market ec s)) i) /\
     (forall i c, 0 <= s_weight sv i c)).

(** The weighting matrix is symmetric and does not link micro moments to others; A inverts X'Z W Z'X; instruments have
    been residualized with respect to absorbed fixed effects. *)
Definition gmm_ready (ec : economy) : Prop :=
  (forall i j, (i < ec_MI ec + MM ec)%nat -> (j < ec_MI ec + MM ec)%nat -> ec_W ec i j = ec_W ec j i) /\
  (forall i m, (i < ec_MI ec)%nat -> (m < MM ec)%nat -> ec_W ec i (ec_MI ec + m)%nat = 0) /\
  inverts (ec_K ec) (fun k l => iv_information (rows ec) (ec_MI ec) (ec_X ec) (ec_Z ec) (ec_W ec) k l) (ec_A ec) /\
  (forall i r, (i < ec_MI ec)%nat -> (r < rows ec)%nat -> sumn (rows ec) (fun n => ec_Z ec n i * ec_absorb ec n r) = ec_Z ec r i).

(** The user's gradient of a function of parts, at their values. *)
Definition differentiates (P : nat) (f : (nat -> R) -> R) (g x : nat -> R) : Prop :=
  forall (w : R -> nat -> R) (dw : nat -> R) t,
    (forall q, (q < P)%nat -> w t q = x q) ->
    (forall q, (q < P)%nat -> derivable_pt_lim (fun y => w y q) t (dw q)) ->
    derivable_pt_lim (fun y => f (w y)) t (sumn P (fun q => g q * dw q)).

Section Ready.
  Variables (solve : nat -> solver) (inverse : nat -> (nat -> nat -> R) -> (nat -> nat -> R) * bool).
  Variables (ec : economy) (delta_of : point -> nat -> nat -> R).

  (** An evaluation without problems: shares are matched and, with a supply side, no replacement is reported. *)
  Definition clean (keep : bool) (v : point) : Prop :=
    forall s, (s < ec_T ec)%nat ->
      matched (ec_market ec s) v (delta_of v s) /\
      (ec_supply ec = true -> snd (eta_of solve (ec_market ec s) v (delta_of v s) inverse keep) = false).

  (** Micro moments are differentiable at v. *)
  Definition micro_ready (v : point) : Prop :=
    forall mo, In mo (ec_moments ec) ->
      differentiates (length (mo_parts mo)) (mo_compute mo)
        (mo_gradient mo (fun r => part_value_at ec delta_of v (nth r (mo_parts mo) O)))
        (fun r => part_value_at ec delta_of v (nth r (mo_parts mo) O)) /\
      forall q, In q (mo_parts mo) ->
        sum_over (ec_parts ec q) (fun d =>
          survey_denominator (snd d) (micro_cell (ec_market ec (fst d)) v (delta_of v (fst d)))) <> 0.

  (** Costs are positive if they are logged. *)
  Definition costs_ready (v : point) : Prop :=
    ec_supply ec = true -> ec_costs_log ec = true ->
    forall s j, (s < ec_T ec)%nat -> (j < products (ec_market ec s))%nat ->
      fst (eta_of solve (ec_market ec s) v (delta_of v s) inverse true) j < var0 (e_market (ec_market ec s)) j.

  (** Jacobians were computed without replacement. *)
  Definition columns_ready (v : point) (p : parameter) : Prop :=
    forall s, (s < ec_T ec)%nat -> snd (xi_column solve (ec_market ec s) v (delta_of v s) p) = false.
End Ready.
