(** Parameter tangents, the implicit function theorem for mean utilities, and markups. *)
From Coq Require Import Reals Lra Lia List Bool Arith FunctionalExtensionality.
From Verif Require Import Base DemandSpec DemandModel DemandProofs DemandShares DemandElim DemandDeriv
  SupplyModel SupplySpec SupplyProofs DerivModel DerivProofs DerivCurve.
Local Open Scope R_scope.

(** ** Parameters in sigma and pi *)
Definition in_range (T : tastes) (p : nonlinear_parameter) : Prop :=
  match p with
  | SigmaParameter k c => (k < r_K2 T)%nat /\ (c < r_K2 T)%nat
  | PiParameter k d => (k < r_K2 T)%nat /\ (d < r_D T)%nat
  end.

Lemma upd2_same s a b k c : upd2 s a b (s a b) k c = s k c.
Proof.
  unfold upd2. destruct (Nat.eqb_spec k a) as [->|]; [|reflexivity].
  destruct (Nat.eqb_spec c b) as [->|]; reflexivity.
Qed.

Lemma sigma_with_same p s pi k c : sigma_with p s (np_value p s pi) k c = s k c.
Proof. destruct p; cbn; [apply upd2_same|reflexivity]. Qed.
Lemma pi_with_same p s pi k c : pi_with p pi (np_value p s pi) k c = pi k c.
Proof. destruct p; cbn; [reflexivity|apply upd2_same]. Qed.

(** The index inside the transformation. *)
Definition rc_index (T : tastes) (sigma pi : nat -> nat -> R) (k j i : nat) : R :=
  sumn (r_K2 T) (fun c => sigma k c * r_nodes T i c) + sumn (r_D T) (fun d => pi k d * r_dem T i d j).

Lemma upd2_sum_derive n (s : nat -> nat -> R) (z : nat -> R) a b k x0 : (b < n)%nat ->
  derivable_pt_lim (fun y => sumn n (fun c => upd2 s a b y k c * z c)) x0 (if Nat.eqb k a then z b else 0).
Proof.
  intros Hb. eapply dlim_eq; [|apply (dlim_sumn n (fun c y => upd2 s a b y k c * z c) x0
    (fun c => if Nat.eqb c b then (if Nat.eqb k a then z c else 0) else 0))].
  - apply (sumn_delta n b (fun c => if Nat.eqb k a then z c else 0) Hb).
  - intros c Hc. unfold upd2. destruct (Nat.eqb k a), (Nat.eqb c b); cbn; try apply dlim_const.
    eapply dlim_eq; [|apply dlim_scal_r, dlim_id]. ring.
Qed.

Lemma index_derive T sigma pi p k j i : in_range T p ->
  derivable_pt_lim (fun y => rc_index T (sigma_with p sigma y) (pi_with p pi y) k j i) (np_value p sigma pi)
    (if Nat.eqb k (np_row p) then agent_characteristic T p i j else 0).
Proof.
  intros HR. unfold rc_index. destruct p as [a b|a b]; cbn [sigma_with pi_with np_row np_value agent_characteristic in_range] in *;
    destruct HR as [Ha Hb].
  - eapply dlim_eq; [|apply dlim_plus; [apply (upd2_sum_derive _ _ _ a b k _ Hb)|apply dlim_const]].
    ring.
  - eapply dlim_eq; [|apply dlim_plus; [apply dlim_const|apply (upd2_sum_derive _ _ (fun d => r_dem T i d j) a b k _ Hb)]].
    ring.
Qed.

Lemma expit_derive f x a : derivable_pt_lim f x a ->
  derivable_pt_lim (fun y => expit (f y)) x (expit (f x) * (1 - expit (f x)) * a).
Proof.
  intros D. unfold expit. assert (H := exp_pos (- f x)).
  eapply dlim_eq; [|apply dlim_div; [apply dlim_const|apply dlim_plus; [apply dlim_const|
     apply (dlim_exp (fun y => - f y)), dlim_opp, D]|lra]].
  cbv beta. field. lra.
Qed.

Lemma rc_same T sigma pi p k j i :
  random_coefficients T (sigma_with p sigma (np_value p sigma pi)) (pi_with p pi (np_value p sigma pi)) k j i
  = random_coefficients T sigma pi k j i.
Proof.
  unfold random_coefficients. f_equal. f_equal; apply sumn_ext; intros c _; f_equal;
    [apply sigma_with_same|apply pi_with_same].
Qed.

Lemma rc_derive T sigma pi p k j i : in_range T p ->
  derivable_pt_lim (fun y => random_coefficients T (sigma_with p sigma y) (pi_with p pi y) k j i)
    (np_value p sigma pi)
    (if Nat.eqb k (np_row p) then effective_characteristic T sigma pi p i j else 0).
Proof.
  intros HR. assert (D := index_derive T sigma pi p k j i HR).
  assert (Es := rc_same T sigma pi p k j i).
  unfold effective_characteristic, random_coefficients in *.
  destruct (Nat.eqb_spec k (np_row p)) as [->|Hne].
  - destruct (r_types T (np_row p)); cbn [rc_transform] in *.
    + exact D.
    + eapply dlim_eq; [|apply (dlim_exp _ _ _ D)]. rewrite <- Es. unfold rc_index. ring.
    + eapply dlim_eq; [|apply (expit_derive _ _ _ D)]. rewrite <- Es. unfold rc_index. ring.
  - destruct (r_types T k); cbn [rc_transform] in *.
    + exact D.
    + eapply dlim_eq; [|apply (dlim_exp _ _ _ D)]. ring.
    + eapply dlim_eq; [|apply (expit_derive _ _ _ D)]. ring.
Qed.

Lemma mu_derive T sigma pi p i j : in_range T p ->
  derivable_pt_lim (fun y => mu_of T (sigma_with p sigma y) (pi_with p pi y) i j) (np_value p sigma pi)
    (r_X2 T j (np_row p) * effective_characteristic T sigma pi p i j).
Proof.
  intros HR. assert (HK : (np_row p < r_K2 T)%nat) by (destruct p; apply HR).
  unfold mu_of. eapply dlim_eq; [|apply (dlim_sumn (r_K2 T)
    (fun k y => r_X2 T j k * random_coefficients T (sigma_with p sigma y) (pi_with p pi y) k j i) _
    (fun k => if Nat.eqb k (np_row p) then r_X2 T j k * effective_characteristic T sigma pi p i j else 0))].
  - apply (sumn_delta (r_K2 T) (np_row p) (fun k => r_X2 T j k * effective_characteristic T sigma pi p i j) HK).
  - intros k Hk. eapply dlim_eq; [|apply dlim_scal, rc_derive, HR].
    destruct (Nat.eqb k (np_row p)); ring.
Qed.

Lemma mu_same T sigma pi p i j :
  mu_of T (sigma_with p sigma (np_value p sigma pi)) (pi_with p pi (np_value p sigma pi)) i j = mu_of T sigma pi i j.
Proof. unfold mu_of. apply sumn_ext; intros k _. rewrite rc_same. reflexivity. Qed.

(** ** Slopes are linear *)
Lemma prob_slope_plus m P C v v' j :
  prob_slope m P C (fun k => v k + v' k) j = prob_slope m P C v j + prob_slope m P C v' j.
Proof.
  unfold prob_slope.
  rewrite (sumn_ext _ (fun k => P k * (v k + v' k)) (fun k => P k * v k + P k * v' k)) by (intros; ring).
  rewrite (sumn_ext _ (fun k => membership m j k * (C k * (v k + v' k)))
             (fun k => membership m j k * (C k * v k) + membership m j k * (C k * v' k))) by (intros; ring).
  rewrite !sumn_plus. destruct (Nat.eqb (mH m) 0); unfold Rdiv; ring.
Qed.

Lemma cond_slope_plus m C v v' j :
  cond_slope m C (fun k => v k + v' k) j = cond_slope m C v j + cond_slope m C v' j.
Proof.
  unfold cond_slope.
  rewrite (sumn_ext _ (fun k => membership m j k * (C k * (v k + v' k)))
             (fun k => membership m j k * (C k * v k) + membership m j k * (C k * v' k))) by (intros; ring).
  rewrite !sumn_plus. unfold Rdiv; ring.
Qed.

Lemma slope_by_xi m safe delta mu d j : valid_market m -> (j < mJ m)%nat ->
  let p := probabilities_linear m full_choice safe delta mu in
  prob_slope m (fst p) (cond_of p) (fun k => d k / eps_scale m) j
  = sumn (mJ m) (fun l => probabilities_by_xi m (fst p) (cond_of p) l j * d l).
Proof.
  intros V Hj p. set (P := fst p). set (C := cond_of p). unfold prob_slope.
  assert (E0 := vm_eps _ V).
  destruct (Nat.eqb_spec (mH m) 0) as [HH|HH].
  - rewrite (sumn_ext (mJ m) (fun l => probabilities_by_xi m P C l j * d l)
      (fun l => (- (P j) * / eps_scale m) * (P l * d l)
                + (if Nat.eqb l j then P j * (d l / eps_scale m) else 0))).
    + rewrite sumn_plus, sumn_scal, (sumn_delta (mJ m) j (fun l => P j * (d l / eps_scale m)) Hj).
      rewrite (sumn_ext (mJ m) (fun k => P k * (d k / eps_scale m)) (fun k => (P k * d k) * / eps_scale m))
        by (intros; unfold Rdiv; ring). rewrite sumn_scal_r. unfold Rdiv. ring.
    + intros l Hl. unfold probabilities_by_xi. rewrite eps_div, HH. cbn [Nat.eqb].
      rewrite (Nat.eqb_sym l j). destruct (Nat.eqb j l); field; lra.
  - rewrite (vm_eps_nest _ V HH). assert (Hr := rho_lt _ _ V HH Hj).
    rewrite (sumn_ext (mJ m) (fun l => probabilities_by_xi m P C l j * d l)
      (fun l => (- (P j)) * (P l * d l)
                + ((if Nat.eqb l j then P j / (1 - rho m j) * d l else 0)
                   + - (rho m j / (1 - rho m j) * P j) * (membership m j l * (C l * d l))))).
    + rewrite !sumn_plus, !sumn_scal, (sumn_delta (mJ m) j (fun l => P j / (1 - rho m j) * d l) Hj).
      rewrite (sumn_ext (mJ m) (fun k => P k * (d k / 1)) (fun k => P k * d k)) by (intros; field).
      rewrite (sumn_ext (mJ m) (fun k => membership m j k * (C k * (d k / 1))) (fun k => membership m j k * (C k * d k)))
        by (intros; field).
      field. lra.
    + intros l Hl. unfold probabilities_by_xi. rewrite eps_div, (vm_eps_nest _ V HH).
      destruct (Nat.eqb_spec (mH m) 0) as [|_]; [contradiction|].
      assert (Hrl := rho_lt _ _ V HH Hl). unfold membership.
      rewrite (Nat.eqb_sym (gid m l)). rewrite (Nat.eqb_sym l j).
      destruct (Nat.eqb_spec (gid m j) (gid m l)) as [Eg|Eg].
      * assert (Er : rho m j = rho m l) by (unfold rho; rewrite Eg; reflexivity).
        assert (Ex := cond_exchange m safe delta mu j l V HH Hj Hl Eg). cbv zeta in Ex. fold p in Ex. fold P C in Ex.
        transitivity ((- P j * P l + (if Nat.eqb j l then P j else 0)) * d l
          - rho m l / (1 - rho m l) * (C j * P l) * d l
          + (if Nat.eqb j l then rho m l / (1 - rho m l) * P l * d l else 0)).
        { destruct (Nat.eqb j l); field; lra. }
        rewrite <- Ex, Er. destruct (Nat.eqb_spec j l) as [->|]; field; lra.
      * destruct (Nat.eqb_spec j l) as [->|]; [contradiction|]. field; lra.
Qed.

Lemma cond_slope_by_xi m safe delta mu d j : valid_market m -> mH m <> O -> (j < mJ m)%nat ->
  let p := probabilities_linear m full_choice safe delta mu in
  cond_slope m (cond_of p) (fun k => d k / eps_scale m) j
  = sumn (mJ m) (fun l => conditionals_by_xi m (cond_of p) l j * d l).
Proof.
  intros V HH Hj p. set (C := cond_of p). unfold cond_slope.
  rewrite (vm_eps_nest _ V HH). assert (Hr := rho_lt _ _ V HH Hj).
  rewrite (sumn_ext (mJ m) (fun l => conditionals_by_xi m C l j * d l)
    (fun l => (- (C j / (1 - rho m j))) * (membership m j l * (C l * d l))
              + (if Nat.eqb l j then C j / (1 - rho m j) * d l else 0))).
  - rewrite sumn_plus, sumn_scal, (sumn_delta (mJ m) j (fun l => C j / (1 - rho m j) * d l) Hj).
    rewrite (sumn_ext (mJ m) (fun k => membership m j k * (C k * (d k / 1))) (fun k => membership m j k * (C k * d k)))
      by (intros; field).
    field. lra.
  - intros l Hl. unfold conditionals_by_xi, membership.
    assert (Hrl := rho_lt _ _ V HH Hl). rewrite (Nat.eqb_sym (gid m l)). rewrite (Nat.eqb_sym l j).
    destruct (Nat.eqb_spec (gid m j) (gid m l)) as [Eg|Eg].
    + assert (Er : rho m j = rho m l) by (unfold rho; rewrite Eg; reflexivity). rewrite Er.
      destruct (Nat.eqb_spec j l) as [->|]; field; lra.
    + destruct (Nat.eqb_spec j l) as [->|]; [contradiction|]. field; lra.
Qed.

(** ** Total derivatives along a path of mean utilities *)
Section Path.
  Variables (m : market) (T : tastes) (sigma pi : nat -> nat -> R) (p : nonlinear_parameter).
  Hypothesis V : valid_market m.
  Hypothesis HR : in_range T p.
  Let t := np_value p sigma pi.
  Let mu := mu_of T sigma pi.
  Definition mu_path (y : R) : nat -> nat -> R := mu_of T (sigma_with p sigma y) (pi_with p pi y).
  Definition vx (i k : nat) : R := r_X2 T k (np_row p) * effective_characteristic T sigma pi p i k.

  Variables (dpath : R -> nat -> R) (d : nat -> R).
  Hypothesis DD : forall k, (k < mJ m)%nat -> derivable_pt_lim (fun y => dpath y k) t (d k).
  Let delta := dpath t.

  Lemma utility_path i k : (k < mJ m)%nat ->
    derivable_pt_lim (fun y => utility m (dpath y) (mu_path y i) k) t (vx i k / eps_scale m + d k / eps_scale m).
  Proof.
    intros Hk. unfold utility. unfold Rdiv.
    eapply dlim_eq; [|apply dlim_scal_r, dlim_plus; [apply DD; assumption|apply mu_derive, HR]].
    unfold vx. ring.
  Qed.

  Lemma utility_at i k : utility m (dpath t) (mu_path t i) k = utility m delta (mu i) k.
  Proof. unfold utility, delta, mu_path, mu, t. rewrite mu_same. reflexivity. Qed.

  Lemma path_prob i j : (j < mJ m)%nat ->
    derivable_pt_lim (fun y => probs m (dpath y) (mu_path y) i j) t
      (total_tangent m (probs m delta mu i) (conds m delta mu i)
         (fst (utility_tangent m (probs m delta mu i) (conds m delta mu i) (vx i))) d j).
  Proof.
    intros Hj. unfold probs at 1.
    eapply dlim_eq; [|apply (prob_derive m true dpath (fun y => mu_path y i) t _ j V Hj (fun k Hk => utility_path i k Hk))].
    cbv zeta.
    rewrite (prob_slope_ext m _ _ _ (probs m delta mu i) (conds m delta mu i) j Hj).
    2:{ intros k Hk. apply probabilities_ext; try assumption. intros; apply utility_at. }
    2:{ intros k Hk. rewrite conds_cond. apply cond_ext; try assumption. intros; apply utility_at. }
    rewrite prob_slope_plus.
    assert (E1 := utility_tangent_slope m true delta (mu i) (vx i) j V Hj). cbv zeta in E1. destruct E1 as [E1 _].
    assert (E2 := slope_by_xi m true delta (mu i) d j V Hj). cbv zeta in E2.
    unfold total_tangent. unfold probs, conds in *. fold (cond_of (probabilities_linear m full_choice true delta (mu i))) in *.
    change (fun j0 : nat => cond_of (probabilities_linear m full_choice true delta (mu i)) j0)
      with (cond_of (probabilities_linear m full_choice true delta (mu i))) in *.
    change (fun j0 : nat => fst (probabilities_linear m full_choice true delta (mu i)) j0)
      with (fst (probabilities_linear m full_choice true delta (mu i))) in *.
    rewrite <- E1, <- E2. reflexivity.
  Qed.

  Lemma path_cond i j : mH m <> O -> (j < mJ m)%nat ->
    derivable_pt_lim (fun y => conds m (dpath y) (mu_path y) i j) t
      (total_cond_tangent m (conds m delta mu i)
         (snd (utility_tangent m (probs m delta mu i) (conds m delta mu i) (vx i))) d j).
  Proof.
    intros HH Hj.
    apply dlim_ext with (fun y => cond_of (probabilities_linear m full_choice true (dpath y) (mu_path y i)) j);
      [intros; symmetry; apply conds_cond|].
    eapply dlim_eq; [|apply (cond_derive m true dpath (fun y => mu_path y i) t _ j V HH Hj (fun k Hk => utility_path i k Hk))].
    rewrite (cond_slope_ext m _ _ (conds m delta mu i) j Hj).
    2:{ intros k Hk. rewrite conds_cond. apply cond_ext; try assumption. intros; apply utility_at. }
    rewrite cond_slope_plus.
    assert (E1 := utility_tangent_slope m true delta (mu i) (vx i) j V Hj). cbv zeta in E1. destruct E1 as [_ E1].
    specialize (E1 HH).
    assert (E2 := cond_slope_by_xi m true delta (mu i) d j V HH Hj). cbv zeta in E2.
    unfold total_cond_tangent. unfold probs, conds in *. fold (cond_of (probabilities_linear m full_choice true delta (mu i))) in *.
    change (fun j0 : nat => cond_of (probabilities_linear m full_choice true delta (mu i)) j0)
      with (cond_of (probabilities_linear m full_choice true delta (mu i))) in *.
    change (fun j0 : nat => fst (probabilities_linear m full_choice true delta (mu i)) j0)
      with (fst (probabilities_linear m full_choice true delta (mu i))) in *.
    rewrite <- E1, <- E2. reflexivity.
  Qed.
End Path.

(** Total derivatives when nesting parameters move, for the groups flagged by [flag]. *)
Section RhoPath.
  Variables (m : market) (mu : nat -> nat -> R) (flag : nat -> bool) (t : R).
  Hypothesis V : valid_market m.
  Hypothesis HH : mH m <> O.
  (** The parameter t governs every flagged group. *)
  Hypothesis Hflag : forall h, flag h = true -> grho m h = t.
  Hypothesis Ht : t < 1.
  (** With a single nesting parameter, it governs every group. *)
  Hypothesis Hall : rho_multi m = false -> forall h, (h < mH m)%nat -> flag h = true.
  Definition rho_path (h : nat) (y : R) : R := if flag h then y else grho m h.
  Definition rho_market (y : R) : market := with_rho m (fun h => rho_path h y).
  Let assoc (h : nat) : R := indR (flag h).

  Variables (dpath : R -> nat -> R) (d : nat -> R).
  Hypothesis DD : forall k, (k < mJ m)%nat -> derivable_pt_lim (fun y => dpath y k) t (d k).
  Let delta := dpath t.

  Lemma rho_path_near : exists e, 0 < e /\ forall y, Rabs (y - t) < e -> valid_market (with_rho m (fun h => rho_path h y)).
  Proof.
    exists (1 - t). split; [lra|]. intros y Hy. assert (Hy1 : y < 1) by (apply Rabs_def2 in Hy; lra).
    constructor; cbn.
    - apply (vm_J _ V).
    - apply (vm_gid _ V).
    - intros _ h Hh. unfold rho_path. destruct (flag h); [assumption|apply (vm_rho _ V HH h Hh)].
    - intros E a b Ha Hb. unfold rho_path. rewrite (Hall E a Ha), (Hall E b Hb). reflexivity.
    - apply (vm_eps _ V).
    - apply (vm_eps_nest _ V).
  Qed.

  Lemma rho_path_at h : rho_path h t = grho m h.
  Proof. unfold rho_path. destruct (flag h) eqn:E; [symmetry; apply Hflag, E|reflexivity]. Qed.

  Lemma rho_path_derive h : derivable_pt_lim (rho_path h) t (assoc h).
  Proof. unfold rho_path, assoc. destruct (flag h); cbn; [apply dlim_id|apply dlim_const]. Qed.

  Lemma rho_path_V i k : (k < mJ m)%nat -> derivable_pt_lim (fun y => dpath y k + mu i k) t (d k).
  Proof. intros Hk. eapply dlim_eq; [|apply dlim_plus; [apply DD; assumption|apply dlim_const]]. ring. Qed.

  Lemma rho_path_prob i j : (j < mJ m)%nat ->
    derivable_pt_lim (fun y => probs (rho_market y) (dpath y) mu i j) t
      (total_tangent m (probs m delta mu i) (conds m delta mu i)
         (fst (rho_tangent m (probs m delta mu i) (conds m delta mu i) delta (mu i) assoc)) d j).
  Proof.
    intros Hj.
    eapply dlim_eq; [|exact (curve_prob m true dpath (fun _ => mu i) rho_path t d assoc V HH
      rho_path_near rho_path_at (rho_path_V i) (fun h _ => rho_path_derive h) j Hj)].
    assert (E2 := slope_by_xi m true delta (mu i) d j V Hj). cbv zeta in E2.
    rewrite (prob_slope_v m _ _ d (fun k => d k / eps_scale m)).
    2:{ intros k. rewrite (vm_eps_nest _ V HH). field. }
    unfold total_tangent. unfold probs, conds. fold delta.
    fold (cond_of (probabilities_linear m full_choice true delta (mu i))).
    change (fun j0 : nat => cond_of (probabilities_linear m full_choice true delta (mu i)) j0)
      with (cond_of (probabilities_linear m full_choice true delta (mu i))) in *.
    change (fun j0 : nat => fst (probabilities_linear m full_choice true delta (mu i)) j0)
      with (fst (probabilities_linear m full_choice true delta (mu i))) in *.
    rewrite <- E2. rewrite Rplus_comm. reflexivity.
  Qed.

  Lemma rho_path_cond i j : (j < mJ m)%nat ->
    derivable_pt_lim (fun y => conds (rho_market y) (dpath y) mu i j) t
      (total_cond_tangent m (conds m delta mu i)
         (snd (rho_tangent m (probs m delta mu i) (conds m delta mu i) delta (mu i) assoc)) d j).
  Proof.
    intros Hj.
    apply dlim_ext with (fun y => cond_of (probabilities_linear (rho_market y) full_choice true (dpath y) (mu i)) j);
      [intros; symmetry; apply conds_cond|].
    eapply dlim_eq; [|exact (curve_cond m true dpath (fun _ => mu i) rho_path t d assoc V HH
      rho_path_near rho_path_at (rho_path_V i) (fun h _ => rho_path_derive h) j Hj)].
    assert (E2 := cond_slope_by_xi m true delta (mu i) d j V HH Hj). cbv zeta in E2.
    assert (E3 : forall C, cond_slope m C d j = cond_slope m C (fun k => d k / eps_scale m) j).
    { intros C. f_equal. apply functional_extensionality; intros k. rewrite (vm_eps_nest _ V HH). field. }
    rewrite E3.
    unfold total_cond_tangent. unfold probs, conds. fold delta.
    fold (cond_of (probabilities_linear m full_choice true delta (mu i))).
    change (fun j0 : nat => cond_of (probabilities_linear m full_choice true delta (mu i)) j0)
      with (cond_of (probabilities_linear m full_choice true delta (mu i))) in *.
    change (fun j0 : nat => fst (probabilities_linear m full_choice true delta (mu i)) j0)
      with (fst (probabilities_linear m full_choice true delta (mu i))) in *.
    rewrite <- E2. rewrite Rplus_comm. reflexivity.
  Qed.
End RhoPath.

(** ** The implicit function theorem *)

(** Matched shares: what remains constant along the path. *)
Lemma implicit_system m I w observed (Pt : R -> nat -> nat -> R) P C (tangent : nat -> nat -> R) d t e :
  valid_market m ->
  0 < e ->
  (forall y j, Rabs (y - t) < e -> (j < mJ m)%nat -> sumn I (fun i => Pt y i j * w i) = observed j) ->
  (forall i j, (j < mJ m)%nat -> Pt t i j = P i j) ->
  (forall i j, (j < mJ m)%nat -> derivable_pt_lim (fun y => Pt y i j) t (total_tangent m (P i) (C i) (tangent i) d j)) ->
  solves (mJ m) (shares_by_xi_jacobian m I w observed P C) (fun j => - shares_by_theta I w tangent j) d.
Proof.
  intros V He Hs HP HD j Hj.
  assert (Et : Rabs (t - t) < e) by (replace (t - t) with 0 by ring; rewrite Rabs_R0; assumption).
  assert (D0 : derivable_pt_lim (fun y => sumn I (fun i => Pt y i j * w i)) t
     (sumn I (fun i => total_tangent m (P i) (C i) (tangent i) d j * w i))).
  { apply (dlim_sumn I (fun i y => Pt y i j * w i)). intros i Hi. apply (dlim_scal_r (w i)). apply HD; assumption. }
  assert (D1 : derivable_pt_lim (fun y => sumn I (fun i => Pt y i j * w i)) t 0).
  { apply dlim_ext_near with (fun _ => observed j) e; [assumption| |apply dlim_const].
    intros y Hy. symmetry. apply Hs; assumption. }
  assert (E := dlim_unique _ _ _ _ D0 D1). clear D0 D1.
  unfold total_tangent in E.
  rewrite (sumn_ext I _ (fun i => tangent i j * w i
     + sumn (mJ m) (fun l => (probabilities_by_xi m (P i) (C i) l j * w i) * d l))) in E.
  2:{ intros i Hi. rewrite Rmult_plus_distr_r. f_equal. rewrite <- sumn_scal_r. apply sumn_ext; intros; ring. }
  rewrite sumn_plus, sumn_swap in E. unfold shares_by_theta.
  apply Rplus_eq_reg_l with (sumn I (fun i => tangent i j * w i)). rewrite Rplus_opp_r. rewrite <- E. f_equal.
  apply sumn_ext; intros l Hl. rewrite sumn_scal_r. f_equal.
  assert (Ho : observed j = sumn I (fun i => P i j * w i)).
  { rewrite <- (Hs t j Et Hj). apply sumn_ext; intros i _. rewrite HP by assumption. reflexivity. }
  unfold shares_by_xi_jacobian, probabilities_by_xi. rewrite eps_div, Ho. assert (E0 := vm_eps _ V).
  rewrite (sumn_ext I (fun i => (if Nat.eqb (mH m) 0 then _ else _) * w i)
    (fun i => (/ eps_scale m) * (if Nat.eqb j l then P i j * w i else 0)
              + - (/ eps_scale m) * (P i j * (w i * P i l))
              + (if Nat.eqb (mH m) 0 then 0 else
                  (if Nat.eqb j l then rho m l / (1 - rho m l) else 0) * (P i l * w i)
                  + - (membership m l j * (rho m l / (1 - rho m l))) * (C i j * (w i * P i l))))).
  2:{ intros i Hi. rewrite eps_div. destruct (Nat.eqb (mH m) 0), (Nat.eqb j l); unfold Rdiv; ring. }
  rewrite !sumn_plus, !sumn_scal.
  destruct (Nat.eqb_spec (mH m) 0) as [HH|HH].
  - rewrite sumn_zero. destruct (Nat.eqb j l); [|rewrite sumn_zero]; field; lra.
  - rewrite sumn_plus, !sumn_scal. rewrite (vm_eps_nest _ V HH).
    assert (Hr := rho_lt _ _ V HH Hj). assert (Hrl := rho_lt _ _ V HH Hl).
    unfold membership. rewrite (Nat.eqb_sym (gid m l)).
    destruct (Nat.eqb_spec (gid m j) (gid m l)) as [Eg|Eg].
    + assert (Er : rho m j = rho m l) by (unfold rho; rewrite Eg; reflexivity). rewrite Er.
      destruct (Nat.eqb_spec j l) as [->|]; [|rewrite sumn_zero]; field; lra.
    + destruct (Nat.eqb_spec j l) as [->|]; [contradiction|]. rewrite sumn_zero. field; lra.
Qed.

(** Strict diagonal dominance makes the system uniquely solvable. *)
Lemma dominant_zero J (A : nat -> nat -> R) x :
  (forall j, (j < J)%nat -> 0 < sumn J (A j)) ->
  (forall j k, (j < J)%nat -> (k < J)%nat -> j <> k -> A j k <= 0) ->
  (forall j, (j < J)%nat -> sumn J (fun k => A j k * x k) = 0) ->
  forall j, (j < J)%nat -> x j <= 0.
Proof.
  intros Hrow Hoff Hx. destruct J as [|n]; [lia|].
  destruct (maxn_attained n x) as [k [Hk Ek]].
  assert (Hmax : forall j, (j < S n)%nat -> x j <= x k).
  { intros j Hj. rewrite <- Ek. apply maxn_ge. lia. }
  intros j Hj. destruct (Rle_lt_dec (x k) 0) as [H|H]; [apply Rle_trans with (x k); auto|].
  exfalso.
  assert (HL : sumn (S n) (fun c => A k c * x k) <= sumn (S n) (fun c => A k c * x c)).
  { apply sumn_le; intros c Hc. destruct (Nat.eq_dec k c) as [->|Hne]; [lra|].
    assert (H1 := Hoff k c ltac:(lia) Hc Hne). assert (H2 := Hmax c Hc). nra. }
  rewrite (Hx k ltac:(lia)), sumn_scal_r in HL.
  assert (H2 := Hrow k ltac:(lia)). nra.
Qed.

Lemma dominant_unique J (A : nat -> nat -> R) b x y :
  (forall j, (j < J)%nat -> 0 < sumn J (A j)) ->
  (forall j k, (j < J)%nat -> (k < J)%nat -> j <> k -> A j k <= 0) ->
  solves J A b x -> solves J A b y -> forall j, (j < J)%nat -> x j = y j.
Proof.
  intros Hrow Hoff Hx Hy j Hj.
  assert (H1 := dominant_zero J A (fun k => x k - y k) Hrow Hoff).
  assert (H2 := dominant_zero J A (fun k => y k - x k) Hrow Hoff).
  cbv beta in *.
  assert (E1 : forall j, (j < J)%nat -> sumn J (fun k => A j k * (x k - y k)) = 0).
  { intros a Ha. rewrite (sumn_ext J _ (fun k => A a k * x k - A a k * y k)) by (intros; ring).
    rewrite sumn_minus, (Hx a Ha), (Hy a Ha). ring. }
  assert (E2 : forall j, (j < J)%nat -> sumn J (fun k => A j k * (y k - x k)) = 0).
  { intros a Ha. rewrite (sumn_ext J _ (fun k => A a k * y k - A a k * x k)) by (intros; ring).
    rewrite sumn_minus, (Hx a Ha), (Hy a Ha). ring. }
  specialize (H1 E1 j Hj). specialize (H2 E2 j Hj). lra.
Qed.

(** The share-by-xi Jacobian is strictly diagonally dominant at matched shares. *)
Lemma xi_jacobian_dominant m a delta observed :
  valid_market m -> valid_agents a ->
  (mH m <> O -> forall h, (h < mH m)%nat -> 0 <= grho m h) ->
  (forall j, (j < mJ m)%nat -> observed j = sumn (aI a) (fun i => probs m delta (amu a) i j * aw a i)) ->
  let A := shares_by_xi_jacobian m (aI a) (aw a) observed (probs m delta (amu a)) (conds m delta (amu a)) in
  (forall j, (j < mJ m)%nat -> 0 < sumn (mJ m) (A j)) /\
  (forall j k, (j < mJ m)%nat -> (k < mJ m)%nat -> j <> k -> A j k <= 0).
Proof.
  intros V VA Hpos Ho A.
  assert (E0 := vm_eps _ V).
  assert (Hw : forall i, (i < aI a)%nat -> 0 <= aw a i) by (intros i Hi; destruct VA as [Hw _]; apply Hw; assumption).
  split.
  - intros j Hj. set (P := probs m delta (amu a)) in *. set (C := conds m delta (amu a)) in *.
    assert (HP : forall i k, (k < mJ m)%nat -> 0 < P i k) by (intros; apply probs_pos; assumption).
    assert (HT : forall i, sumn (mJ m) (P i) < 1).
    { intros i. unfold P, probs. apply (proj2 (probabilities_proper m true delta (amu a i) V)). }
    assert (ET : sumn (mJ m) (A j)
      = sumn (aI a) (fun i => (P i j * (1 - sumn (mJ m) (P i)) * aw a i)) / eps_scale m).
    { unfold A, shares_by_xi_jacobian.
      assert (Hsum : sumn (mJ m) (fun k => sumn (aI a) (fun i => P i j * (aw a i * P i k)))
                = sumn (aI a) (fun i => P i j * aw a i * sumn (mJ m) (P i))).
      { rewrite sumn_swap. apply sumn_ext; intros i _. rewrite <- sumn_scal. apply sumn_ext; intros; ring. }
      assert (Hdiag : sumn (mJ m) (fun k => if Nat.eqb j k then observed j else 0) = observed j).
      { rewrite (sumn_ext _ _ (fun k => if Nat.eqb k j then observed j else 0)) by (intros; rewrite Nat.eqb_sym; reflexivity).
        apply (sumn_delta (mJ m) j (fun _ => observed j) Hj). }
      assert (HR : sumn (aI a) (fun i => P i j * (1 - sumn (mJ m) (P i)) * aw a i)
        = observed j - sumn (aI a) (fun i => P i j * aw a i * sumn (mJ m) (P i))).
      { rewrite (Ho j Hj), <- sumn_minus. apply sumn_ext; intros; ring. }
      rewrite HR.
      destruct (Nat.eqb_spec (mH m) 0) as [HH|HH].
      - rewrite (sumn_ext (mJ m) _ (fun k => ((if Nat.eqb j k then observed j else 0)
            - sumn (aI a) (fun i => P i j * (aw a i * P i k))) * / eps_scale m))
          by (intros; rewrite eps_div; reflexivity).
        rewrite sumn_scal_r, sumn_minus, Hdiag, Hsum. reflexivity.
      - assert (Hr := rho_lt _ _ V HH Hj). rewrite (vm_eps_nest _ V HH).
        rewrite (sumn_ext (mJ m) _ (fun k => ((if Nat.eqb j k then observed j else 0)
            - sumn (aI a) (fun i => P i j * (aw a i * P i k)))
            + rho m j / (1 - rho m j) * ((if Nat.eqb j k then observed j else 0)
                 - membership m j k * sumn (aI a) (fun i => C i j * (aw a i * P i k)))))
          by (intros; destruct (Req_EM_T 1 1); [reflexivity|lra]).
        rewrite sumn_plus, sumn_scal, !sumn_minus, Hdiag, Hsum.
        assert (HC : sumn (mJ m) (fun k => membership m j k * sumn (aI a) (fun i => C i j * (aw a i * P i k))) = observed j).
        { rewrite (sumn_ext (mJ m) _ (fun k => sumn (aI a) (fun i => (C i j * aw a i) * (membership m j k * P i k))))
            by (intros; rewrite <- sumn_scal; apply sumn_ext; intros; ring).
          rewrite sumn_swap, (Ho j Hj). apply sumn_ext; intros i Hi. rewrite sumn_scal, gsum_member.
          assert (Ep := prob_cond m true delta (amu a i) j V HH Hj). cbv zeta in Ep.
          unfold P, C. rewrite conds_cond.
          change (probs m delta (amu a) i) with (fst (probabilities_linear m full_choice true delta (amu a i))).
          rewrite Ep. ring. }
        rewrite HC. field. lra. }
    rewrite ET. unfold Rdiv. apply Rmult_lt_0_compat; [|apply Rinv_0_lt_compat; assumption].
    destruct VA as [_ [i0 [Hi0 Hp0]]]. apply sumn_pos.
    + intros i Hi. specialize (HP i j Hj). specialize (HT i). specialize (Hw i Hi).
      apply Rmult_le_pos; [apply Rmult_le_pos; lra|assumption].
    + exists i0; split; [assumption|]. specialize (HP i0 j Hj). specialize (HT i0).
      apply Rmult_lt_0_compat; [apply Rmult_lt_0_compat; lra|assumption].
  - intros j k Hj Hk Hne. unfold A, shares_by_xi_jacobian. rewrite eps_div.
    apply Nat.eqb_neq in Hne. rewrite Hne.
    assert (H1 : 0 <= sumn (aI a) (fun i => probs m delta (amu a) i j * (aw a i * probs m delta (amu a) i k))).
    { apply sumn_nonneg; intros i Hi. assert (P1 := probs_pos m delta (amu a) i j V Hj).
      assert (P2 := probs_pos m delta (amu a) i k V Hk). specialize (Hw i Hi).
      apply Rmult_le_pos; [lra|]. apply Rmult_le_pos; lra. }
    set (s1 := sumn (aI a) _) in H1 |- *.
    assert (H2 : (0 - s1) / eps_scale m <= 0).
    { unfold Rdiv. rewrite Rminus_0_l. rewrite Ropp_mult_distr_l_reverse.
      assert (0 <= s1 * / eps_scale m) by (apply Rmult_le_pos; [assumption|left; apply Rinv_0_lt_compat; assumption]). lra. }
    destruct (Nat.eqb_spec (mH m) 0) as [HH|HH]; [exact H2|].
    assert (Hr := rho_lt _ _ V HH Hj).
    assert (Hr0 : 0 <= rho m j) by (apply (Hpos HH), (vm_gid _ V HH); assumption).
    assert (H3 : 0 <= sumn (aI a) (fun i => conds m delta (amu a) i j * (aw a i * probs m delta (amu a) i k))).
    { apply sumn_nonneg; intros i Hi.
      assert (P2 := probs_pos m delta (amu a) i k V Hk). specialize (Hw i Hi).
      apply Rmult_le_pos; [|apply Rmult_le_pos; lra].
      rewrite conds_cond, cond_spec by assumption. left. apply within_pos; [assumption|reflexivity]. }
    set (s2 := sumn (aI a) _) in H3 |- *.
    assert (H4 : 0 <= rho m j / (1 - rho m j)).
    { apply Rmult_le_pos; [assumption|left; apply Rinv_0_lt_compat; lra]. }
    assert (H5 : 0 <= membership m j k * s2).
    { unfold membership. destruct (Nat.eqb (gid m j) (gid m k)); [rewrite Rmult_1_l; exact H3|rewrite Rmult_0_l; lra]. }
    assert (0 <= rho m j / (1 - rho m j) * (membership m j k * s2)) by (apply Rmult_le_pos; assumption).
    lra.
Qed.

(** ** Markups *)
Section Capital.
  Variables (m : market) (I : nat) (w : nat -> R) (t : R).
  Variables (r : nat -> R -> R) (assoc : nat -> R).
  Variables (P C U : R -> nat -> nat -> R) (dP dC dU : nat -> nat -> R).
  Let J := mJ m.
  Hypothesis Hr1 : mH m <> O -> forall j, (j < J)%nat -> rho m j < 1.
  Hypothesis Ht : forall h, r h t = grho m h.
  Hypothesis Dr : forall j, (j < J)%nat -> derivable_pt_lim (r (gid m j)) t (assoc (gid m j)).
  Hypothesis DP : forall i j, (j < J)%nat -> derivable_pt_lim (fun y => P y i j) t (dP i j).
  Hypothesis DC : mH m <> O -> forall i j, (j < J)%nat -> derivable_pt_lim (fun y => C y i j) t (dC i j).
  Hypothesis DU : forall i j, (j < J)%nat -> derivable_pt_lim (fun y => U y i j) t (dU i j).
  Let m' (y : R) := with_rho m (fun h => r h y).

  Lemma pud_derive i j : (j < J)%nat ->
    derivable_pt_lim (fun y => P y i j * U y i j) t (pud_tangent (P t) (U t) dP dU i j).
  Proof. intros Hj. apply dlim_mult; auto. Qed.

  Lemma capital_lamda_derive j : (j < J)%nat ->
    derivable_pt_lim (fun y => capital_lamda (m' y) I w (P y) (U y) j) t
      (capital_lamda_tangent m I w (P t) (U t) dP dU assoc j).
  Proof.
    intros Hj. unfold capital_lamda, capital_lamda_tangent. cbn [with_rho m' mH].
    assert (D : derivable_pt_lim (fun y => sumn I (fun i => P y i j * U y i j * w i)) t
       (sumn I (fun i => pud_tangent (P t) (U t) dP dU i j * w i))).
    { apply (dlim_sumn I (fun i y => P y i j * U y i j * w i)). intros i Hi.
      apply (dlim_scal_r (w i)), pud_derive; assumption. }
    destruct (Nat.eqb_spec (mH m) 0) as [HH|HH]; [exact D|].
    assert (H1 := Hr1 HH j Hj).
    assert (D2 : derivable_pt_lim (fun y => 1 - rho (m' y) j) t (0 - assoc (gid m j)))
      by (apply dlim_minus; [apply dlim_const|exact (Dr j Hj)]).
    assert (E1 : rho (m' t) j = rho m j) by (unfold rho, m'; cbn; apply Ht).
    assert (N : 1 - rho (m' t) j <> 0) by (rewrite E1; lra).
    eapply dlim_eq; [|exact (dlim_div _ _ _ _ _ D D2 N)].
    cbv beta. rewrite E1. field. lra.
  Qed.

  Lemma capital_gamma_derive j k : (j < J)%nat -> (k < J)%nat ->
    derivable_pt_lim (fun y => capital_gamma (m' y) I w (P y) (C y) (U y) j k) t
      (capital_gamma_tangent m I w (P t) (C t) (U t) dP dC dU assoc j k).
  Proof.
    intros Hj Hk. unfold capital_gamma, capital_gamma_tangent. cbn [with_rho m' mH].
    assert (DX : forall (X : R -> nat -> nat -> R) dX,
      (forall i, derivable_pt_lim (fun y => X y i j) t (dX i j)) ->
      derivable_pt_lim (fun y => sumn I (fun i => X y i j * (w i * (P y i k * U y i k)))) t
        (sumn I (fun i => dX i j * (w i * (P t i k * U t i k)))
         + sumn I (fun i => X t i j * (w i * pud_tangent (P t) (U t) dP dU i k)))).
    { intros X dX HX. rewrite <- sumn_plus.
      apply (dlim_sumn I (fun i y => X y i j * (w i * (P y i k * U y i k)))). intros i Hi.
      apply (dlim_mult (fun y => X y i j) (fun y => w i * (P y i k * U y i k))); [apply HX|].
      apply dlim_scal, pud_derive; assumption. }
    assert (D1 := DX P dP (fun i => DP i j Hj)).
    destruct (Nat.eqb_spec (mH m) 0) as [HH|HH]; [exact D1|].
    assert (D2 := DX C dC (fun i => DC HH i j Hj)).
    assert (H1 := Hr1 HH j Hj).
    assert (DR : derivable_pt_lim (fun y => rho (m' y) j / (1 - rho (m' y) j)) t
       (assoc (gid m j) / ((1 - rho m j) * (1 - rho m j)))).
    { assert (E1 : rho (m' t) j = rho m j) by (unfold rho, m'; cbn; apply Ht).
      assert (Da : derivable_pt_lim (fun y => rho (m' y) j) t (assoc (gid m j))) by exact (Dr j Hj).
      assert (Db : derivable_pt_lim (fun y => 1 - rho (m' y) j) t (0 - assoc (gid m j)))
        by (apply dlim_minus; [apply dlim_const|exact (Dr j Hj)]).
      assert (N : 1 - rho (m' t) j <> 0) by (rewrite E1; lra).
      eapply dlim_eq; [|exact (dlim_div _ _ _ _ _ Da Db N)].
      cbv beta. rewrite E1. field. lra. }
    rewrite Rplus_assoc. apply dlim_plus; [exact D1|].
    assert (E1 : rho (m' t) j = rho m j) by (unfold rho, m'; cbn; apply Ht).
    eapply dlim_eq; [|exact (dlim_mult _ _ _ _ _ (dlim_scal_r (membership m j k) _ _ _ DR) D2)].
    cbv beta. rewrite E1. field. lra.
  Qed.

  Definition capital_delta_curve (ownership : nat -> nat -> R) (y : R) (j k : nat) : R :=
    (capital_gamma (m' y) I w (P y) (C y) (U y) k j
     - (if Nat.eqb k j then capital_lamda (m' y) I w (P y) (U y) k else 0)) * ownership j k.

  Lemma capital_delta_derive ownership j k : (j < J)%nat -> (k < J)%nat ->
    derivable_pt_lim (fun y => capital_delta_curve ownership y j k) t
      (capital_delta_tangent m I w (P t) (C t) (U t) dP dC dU assoc ownership j k).
  Proof.
    intros Hj Hk. unfold capital_delta_curve, capital_delta_tangent.
    apply (dlim_scal_r (ownership j k)). apply dlim_minus; [apply capital_gamma_derive; assumption|].
    destruct (Nat.eqb k j); [apply capital_lamda_derive; assumption|apply dlim_const].
  Qed.
End Capital.

(** Differentiating the markup equation Delta eta = s with s fixed. *)
Lemma eta_implicit J (D : R -> nat -> nat -> R) (dD inv : nat -> nat -> R) (eta : R -> nat -> R) deta s t e :
  0 < e ->
  (forall y j, Rabs (y - t) < e -> (j < J)%nat -> sumn J (fun k => D y j k * eta y k) = s j) ->
  (forall j k, (j < J)%nat -> (k < J)%nat -> derivable_pt_lim (fun y => D y j k) t (dD j k)) ->
  (forall k, (k < J)%nat -> derivable_pt_lim (fun y => eta y k) t (deta k)) ->
  (forall j k, (j < J)%nat -> (k < J)%nat ->
     sumn J (fun a => inv j a * D t a k) = if Nat.eqb j k then 1 else 0) ->
  forall j, (j < J)%nat -> deta j = eta_by_theta J inv dD (eta t) j.
Proof.
  intros He Hs HD Heta Hinv j Hj.
  assert (E : forall a, (a < J)%nat ->
    sumn J (fun k => D t a k * deta k) = - sumn J (fun k => dD a k * eta t k)).
  { intros a Ha.
    assert (D0 : derivable_pt_lim (fun y => sumn J (fun k => D y a k * eta y k)) t
       (sumn J (fun k => dD a k * eta t k + D t a k * deta k))).
    { apply (dlim_sumn J (fun k y => D y a k * eta y k)). intros k Hk. apply dlim_mult; auto. }
    assert (D1 : derivable_pt_lim (fun y => sumn J (fun k => D y a k * eta y k)) t 0).
    { apply dlim_ext_near with (fun _ => s a) e; [assumption| |apply dlim_const].
      intros y Hy. symmetry. apply Hs; assumption. }
    assert (E := dlim_unique _ _ _ _ D0 D1). rewrite sumn_plus in E. lra. }
  unfold eta_by_theta.
  transitivity (sumn J (fun a => inv j a * sumn J (fun k => D t a k * deta k))).
  - rewrite (sumn_ext J _ (fun a => sumn J (fun k => inv j a * D t a k * deta k)))
      by (intros; rewrite <- sumn_scal; apply sumn_ext; intros; ring).
    rewrite sumn_swap.
    rewrite (sumn_ext J _ (fun k => if Nat.eqb k j then deta k else 0)).
    + symmetry. apply (sumn_delta J j deta Hj).
    + intros k Hk. rewrite sumn_scal_r, (Hinv j k Hj Hk), Nat.eqb_sym. destruct (Nat.eqb k j); ring.
  - rewrite (sumn_ext J (fun a => inv j a * sumn J (fun k => D t a k * deta k))
       (fun a => - sumn J (fun k => inv j a * dD a k * eta t k))).
    + rewrite sumn_opp, sumn_swap. f_equal. apply sumn_ext; intros k Hk. rewrite sumn_scal_r. reflexivity.
    + intros a Ha. rewrite (E a Ha).
      rewrite (sumn_ext J (fun k => inv j a * dD a k * eta t k) (fun k => inv j a * (dD a k * eta t k))) by (intros; ring).
      rewrite sumn_scal. ring.
Qed.

Lemma omega_derive (costs_log : bool) prices (eta : R -> nat -> R) deta t j :
  derivable_pt_lim (fun y => eta y j) t deta ->
  (costs_log = true -> 0 < prices j - eta t j) ->
  derivable_pt_lim (fun y => tilde_costs_of costs_log prices (eta y) j) t
    (omega_by_theta costs_log (tilde_costs_of costs_log prices (eta t)) (fun _ => deta) j).
Proof.
  intros D Hp. unfold tilde_costs_of, omega_by_theta. destruct costs_log.
  - specialize (Hp eq_refl). eapply dlim_eq; [|apply dlim_ln; [apply dlim_minus; [apply dlim_const|exact D]|exact Hp]].
    rewrite exp_ln by assumption. cbv beta. field. lra.
  - eapply dlim_eq; [|apply dlim_minus; [apply dlim_const|exact D]]. ring.
Qed.
