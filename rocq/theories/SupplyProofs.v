(** Lemmas about SupplyModel: derivatives of shares, markups and equilibrium prices. *)
From Coq Require Import Reals Lra Lia List Bool Arith.
From Verif Require Import Base DemandSpec DemandModel DemandProofs DemandShares DemandDeriv SupplyModel SupplySpec.
Local Open Scope R_scope.

(** Conditional probabilities, zero without nesting. *)
Definition cond_of (p : (nat -> R) * option (nat -> R)) (j : nat) : R :=
  match snd p with Some c => c j | None => 0 end.

(** Slope of the probability of j when utilities (after the epsilon scale) have slopes v. *)
Definition prob_slope (m : market) (P C v : nat -> R) (j : nat) : R :=
  P j * ((if Nat.eqb (mH m) 0 then v j
          else v j / (1 - rho m j)
               - rho m j / (1 - rho m j) * sumn (mJ m) (fun k => membership m j k * (C k * v k)))
         - sumn (mJ m) (fun k => P k * v k)).

Lemma weights_pos J H grp r inc V : 0 < indR true + sumn H (group_weight J grp r inc V).
Proof. assert (X := weights_nonneg J H grp r inc V). simpl. lra. Qed.

Lemma nested_ext J H grp r inc out V V' j :
  (j < J)%nat -> (forall k, (k < J)%nat -> V k = V' k) ->
  nested J H grp r inc out V j = nested J H grp r inc out V' j.
Proof.
  intros Hj E.
  assert (EI : forall h, inclusive J grp r inc V h = inclusive J grp r inc V' h).
  { intros h. unfold inclusive. apply sumn_ext; intros k Hk. rewrite (E k Hk); reflexivity. }
  assert (EW : forall h, group_weight J grp r inc V h = group_weight J grp r inc V' h).
  { intros h. unfold group_weight. rewrite EI; reflexivity. }
  unfold nested, within_group, group_share. rewrite EI, (E j Hj), EW.
  rewrite (sumn_ext H _ _ (fun h _ => EW h)). reflexivity.
Qed.

Lemma cond_spec m safe delta mu j :
  valid_market m -> mH m <> O -> (j < mJ m)%nat ->
  cond_of (probabilities_linear m full_choice safe delta mu) j
  = within_group (mJ m) (gid m) (grho m) all_goods (utility m delta mu) j.
Proof.
  intros V HH Hj. rewrite full_choice_with.
  destruct (probabilities_spec m safe true None None None delta mu V) as [_ B].
  destruct (B HH) as [_ [con [E Hc]]]. unfold cond_of. rewrite E. rewrite (Hc j Hj), included_all.
  reflexivity.
Qed.

Lemma cond_plain m safe delta mu j :
  valid_market m -> mH m = O -> cond_of (probabilities_linear m full_choice safe delta mu) j = 0.
Proof.
  intros V HH. rewrite full_choice_with.
  destruct (probabilities_spec m safe true None None None delta mu V) as [A _].
  destruct (A HH) as [_ E]. unfold cond_of. rewrite E. reflexivity.
Qed.

(** The derivative of a choice probability along a curve of mean utilities and mu. *)
Lemma prob_derive m safe (delta mu : R -> nat -> R) t v j :
  valid_market m -> (j < mJ m)%nat ->
  (forall k, (k < mJ m)%nat -> derivable_pt_lim (fun y => utility m (delta y) (mu y) k) t (v k)) ->
  derivable_pt_lim (fun y => fst (probabilities_linear m full_choice safe (delta y) (mu y)) j) t
    (let p := probabilities_linear m full_choice safe (delta t) (mu t) in
     prob_slope m (fst p) (cond_of p) v j).
Proof.
  intros V Hj DV. cbv zeta.
  apply dlim_ext with (fun y => nested (mJ m) (grpn m) (gidx m) (grhox m) all_goods true
                                  (fun k => utility m (delta y) (mu y) k) j).
  { intros y. rewrite full_choice_with, probabilities_nested by assumption.
    rewrite included_all. reflexivity. }
  eapply dlim_eq; [|apply (dlim_nested_fixed (mJ m) (grpn m) (gidx m) all_goods true
      (fun k y => utility m (delta y) (mu y) k) (grhox m) t v)].
  - unfold prob_slope.
    assert (EP : forall k, (k < mJ m)%nat ->
       fst (probabilities_linear m full_choice safe (delta t) (mu t)) k
       = nested (mJ m) (grpn m) (gidx m) (grhox m) all_goods true (fun k => utility m (delta t) (mu t) k) k).
    { intros k Hk. rewrite full_choice_with, probabilities_nested by assumption.
      rewrite included_all. reflexivity. }
    rewrite (EP j Hj). f_equal.
    rewrite (sumn_ext (mJ m) (fun k => fst (probabilities_linear m full_choice safe (delta t) (mu t)) k * v k)
      (fun k => nested (mJ m) (grpn m) (gidx m) (grhox m) all_goods true
                  (fun k => utility m (delta t) (mu t) k) k * v k))
      by (intros k Hk; rewrite (EP k Hk); reflexivity).
    f_equal.
    unfold grhox, gidx, rho. destruct (Nat.eqb_spec (mH m) 0) as [HH|HH].
    + field.
    + f_equal. f_equal. unfold avg_group. apply sumn_ext; intros k Hk.
      rewrite cond_spec by assumption. unfold membership. rewrite Nat.eqb_sym.
      destruct (Nat.eqb (gid m j) (gid m k)) eqn:E; [|ring].
      rewrite Rmult_1_l. reflexivity.
  - intros k Hk. apply gidx_lt; assumption.
  - intros h Hh. apply grhox_lt; assumption.
  - exact DV.
  - assumption.
  - apply weights_pos.
Qed.

(** Bayes: within a group, P_j C_k = C_j P_k. *)
Lemma cond_exchange m safe delta mu j k :
  valid_market m -> mH m <> O -> (j < mJ m)%nat -> (k < mJ m)%nat -> gid m j = gid m k ->
  let p := probabilities_linear m full_choice safe delta mu in
  fst p j * cond_of p k = cond_of p j * fst p k.
Proof.
  intros V HH Hj Hk E p. unfold p. rewrite !cond_spec by assumption.
  rewrite full_choice_with.
  destruct (probabilities_spec m safe true None None None delta mu V) as [_ B].
  destruct (B HH) as [B1 _]. rewrite (B1 j Hj), (B1 k Hk). rewrite included_all.
  unfold nested. rewrite E. ring.
Qed.

Lemma prob_slope_single m safe delta mu c l j :
  valid_market m -> (j < mJ m)%nat -> (l < mJ m)%nat ->
  let p := probabilities_linear m full_choice safe delta mu in
  prob_slope m (fst p) (cond_of p) (fun k => if Nat.eqb k l then c else 0) j
  = (if Nat.eqb j l then (if Nat.eqb (mH m) 0 then fst p j * c else fst p j * c / (1 - rho m j)) else 0)
    - (if Nat.eqb (mH m) 0 then fst p j * (fst p l * c)
       else fst p j * (fst p l * c)
            + rho m j / (1 - rho m j) * membership m j l * (cond_of p j * (fst p l * c))).
Proof.
  intros V Hj Hl p. unfold prob_slope.
  rewrite (sumn_ext (mJ m) (fun k => fst p k * (if Nat.eqb k l then c else 0))
             (fun k => if Nat.eqb k l then fst p k * c else 0))
    by (intros k _; destruct (Nat.eqb k l); ring).
  rewrite (sumn_delta (mJ m) l (fun k => fst p k * c) Hl).
  rewrite (sumn_ext (mJ m) (fun k => membership m j k * (cond_of p k * (if Nat.eqb k l then c else 0)))
             (fun k => if Nat.eqb k l then membership m j k * (cond_of p k * c) else 0))
    by (intros k _; destruct (Nat.eqb k l); ring).
  rewrite (sumn_delta (mJ m) l (fun k => membership m j k * (cond_of p k * c)) Hl).
  destruct (Nat.eqb_spec (mH m) 0) as [HH|HH].
  - destruct (Nat.eqb j l); ring.
  - assert (EX : membership m j l * (fst p j * cond_of p l) = membership m j l * (cond_of p j * fst p l)).
    { unfold membership. destruct (Nat.eqb_spec (gid m j) (gid m l)) as [E|E]; [|ring].
      f_equal. apply cond_exchange; assumption. }
    assert (Hr : rho m j < 1).
    { unfold rho. apply (vm_rho _ V HH). apply (vm_gid _ V HH); assumption. }
    set (q := rho m j / (1 - rho m j)).
    transitivity ((if Nat.eqb j l then fst p j * c / (1 - rho m j) else 0)
        - q * (membership m j l * (fst p j * cond_of p l)) * c - fst p j * (fst p l * c)).
    + destruct (Nat.eqb j l); unfold q; field; lra.
    + rewrite EX. destruct (Nat.eqb j l); unfold q; field; lra.
Qed.

(** Correct symbolic derivatives, at the values x, of every column that uses the variable.  Columns need
    not be differentiable, or defined, elsewhere: log(prices) is good at positive prices. *)
Definition good_columns (M : full_market) (x : nat -> R) : Prop :=
  (forall k j, uses (fX1 M k) = true -> (k < fK1 M)%nat -> (j < mJ (fm M))%nat ->
     derivable_pt_lim (ev (fX1 M k) j) (x j) (dv1 (fX1 M k) j (x j))) /\
  (forall k j, uses (fX2 M k) = true -> (k < fK2 M)%nat -> (j < mJ (fm M))%nat ->
     derivable_pt_lim (ev (fX2 M k) j) (x j) (dv1 (fX2 M k) j (x j))).

Lemma eps_div m u : (if Req_EM_T (eps_scale m) 1 then u else u / eps_scale m) = u / eps_scale m.
Proof. destruct (Req_EM_T (eps_scale m) 1) as [->|]; [field|reflexivity]. Qed.

Lemma utility_curve M x l i k :
  valid_market (fm M) -> good_columns M x -> (k < mJ (fm M))%nat ->
  derivable_pt_lim (fun t => utility (fm M) (update_delta M (upd x l t)) (update_mu M (upd x l t) i) k) (x l)
    (if Nat.eqb k l then utility_derivatives M false x i k else 0).
Proof.
  intros V [G1 G2] Hk. unfold utility_derivatives. rewrite eps_div. unfold utility.
  assert (E0 := vm_eps _ V).
  set (s1 := sumn (fK1 M) _). set (s2 := sumn (fK2 M) _).
  apply dlim_eq with ((if Nat.eqb k l then s1 + s2 else 0) * / eps_scale (fm M)).
  { destruct (Nat.eqb k l); unfold Rdiv; ring. }
  apply (dlim_scal_r (/ eps_scale (fm M))
    (fun t => update_delta M (upd x l t) k + update_mu M (upd x l t) i k)).
  destruct (Nat.eqb_spec k l) as [->|Hne].
  - apply dlim_plus.
    + unfold update_delta. apply dlim_eq with (0 + s1); [ring|].
      apply dlim_plus; [apply dlim_const|]. unfold s1.
      apply (dlim_sumn (fK1 M) (fun k t => if uses (fX1 M k)
          then fbeta M k * (ev (fX1 M k) l (upd x l t l) - ev (fX1 M k) l (var0 M l)) else 0)).
      intros c Hc. destruct (uses (fX1 M c)) eqn:Eu; [|rewrite Rmult_0_l; apply dlim_const].
      apply dlim_eq with (fbeta M c * (dv1 (fX1 M c) l (x l) - 0)); [ring|].
      apply (dlim_scal (fbeta M c) (fun t => ev (fX1 M c) l (upd x l t l) - ev (fX1 M c) l (var0 M l))).
      apply dlim_minus; [|apply dlim_const].
      apply dlim_ext with (ev (fX1 M c) l); [|apply G1; assumption].
      intros y; unfold upd; rewrite Nat.eqb_refl; reflexivity.
    + unfold update_mu, compute_mu, s2.
      apply (dlim_sumn (fK2 M) (fun k t => (if uses (fX2 M k) then ev (fX2 M k) l (upd x l t l)
                                            else X2_0 M l k) * fcoef M k l i)).
      intros c Hc.
      apply (dlim_scal_r (fcoef M c l i) (fun t => if uses (fX2 M c) then ev (fX2 M c) l (upd x l t l)
                                            else X2_0 M l c)).
      destruct (uses (fX2 M c)) eqn:Eu; [|apply dlim_const].
      apply dlim_ext with (ev (fX2 M c) l); [|apply G2; assumption].
      intros y; unfold upd; rewrite Nat.eqb_refl; reflexivity.
  - apply dlim_ext with (fun t => update_delta M x k + update_mu M x i k); [|apply dlim_const].
    intros y. unfold update_delta, update_mu, compute_mu, upd.
    apply Nat.eqb_neq in Hne. rewrite Hne. reflexivity.
Qed.

Lemma utility_upd_same M x l i k :
  utility (fm M) (update_delta M (upd x l (x l))) (update_mu M (upd x l (x l)) i) k
  = utility (fm M) (update_delta M x) (update_mu M x i) k.
Proof. unfold utility, update_delta, update_mu, compute_mu. rewrite upd_same. reflexivity. Qed.

(** Probabilities depend on delta and mu only through the J utilities. *)
Lemma probabilities_ext m safe delta mu delta' mu' j :
  valid_market m -> (j < mJ m)%nat ->
  (forall k, (k < mJ m)%nat -> utility m delta mu k = utility m delta' mu' k) ->
  fst (probabilities_linear m full_choice safe delta mu) j
  = fst (probabilities_linear m full_choice safe delta' mu') j.
Proof.
  intros V Hj E. rewrite full_choice_with, !probabilities_nested by assumption.
  apply nested_ext; assumption.
Qed.

Lemma cond_ext m safe delta mu delta' mu' j :
  valid_market m -> (j < mJ m)%nat ->
  (forall k, (k < mJ m)%nat -> utility m delta mu k = utility m delta' mu' k) ->
  cond_of (probabilities_linear m full_choice safe delta mu) j
  = cond_of (probabilities_linear m full_choice safe delta' mu') j.
Proof.
  intros V Hj E. destruct (Nat.eq_dec (mH m) 0) as [HH|HH].
  - rewrite !cond_plain by assumption. reflexivity.
  - rewrite !cond_spec by assumption. unfold within_group. rewrite (E j Hj).
    assert (EI : forall h, inclusive (mJ m) (gid m) (grho m) all_goods (utility m delta mu) h
                         = inclusive (mJ m) (gid m) (grho m) all_goods (utility m delta' mu') h).
    { intros h. unfold inclusive. apply sumn_ext; intros k Hk. rewrite (E k Hk); reflexivity. }
    rewrite EI. reflexivity.
Qed.

Lemma conds_cond m delta mu i j :
  conds m delta mu i j = cond_of (probabilities_linear m full_choice true delta (mu i)) j.
Proof. reflexivity. Qed.

Lemma prob_slope_ext m P C v P' C' j :
  (j < mJ m)%nat ->
  (forall k, (k < mJ m)%nat -> P k = P' k) -> (forall k, (k < mJ m)%nat -> C k = C' k) ->
  prob_slope m P C v j = prob_slope m P' C' v j.
Proof.
  intros Hj EP EC. unfold prob_slope. rewrite (EP j Hj).
  rewrite (sumn_ext _ (fun k => P k * v k) (fun k => P' k * v k)) by (intros k Hk; rewrite (EP k Hk); reflexivity).
  rewrite (sumn_ext _ (fun k => membership m j k * (C k * v k)) (fun k => membership m j k * (C' k * v k)))
    by (intros k Hk; rewrite (EC k Hk); reflexivity).
  reflexivity.
Qed.

Lemma prob_derive_var M x l i j :
  valid_market (fm M) -> good_columns M x -> (j < mJ (fm M))%nat ->
  derivable_pt_lim (fun t => probs (fm M) (update_delta M (upd x l t)) (update_mu M (upd x l t)) i j) (x l)
    (prob_slope (fm M) (probs (fm M) (update_delta M x) (update_mu M x) i)
       (conds (fm M) (update_delta M x) (update_mu M x) i)
       (fun k => if Nat.eqb k l then utility_derivatives M false x i k else 0) j).
Proof.
  intros V G Hj. unfold probs.
  eapply dlim_eq; [|apply (prob_derive (fm M) true (fun t => update_delta M (upd x l t))
     (fun t => update_mu M (upd x l t) i)); [assumption|assumption|]].
  - cbv zeta. apply prob_slope_ext; [assumption| |].
    + intros k Hk. apply probabilities_ext; try assumption. intros; apply utility_upd_same.
    + intros k Hk. rewrite conds_cond. apply cond_ext; try assumption. intros; apply utility_upd_same.
  - intros k Hk. apply utility_curve; assumption.
Qed.

(** C14: the Jacobian is the derivative of shares. *)
Lemma jacobian_is_derivative M x j l :
  valid_market (fm M) -> good_columns M x -> (j < mJ (fm M))%nat -> (l < mJ (fm M))%nat ->
  derivable_pt_lim (fun t => shares_at M (upd x l t) j) (x l) (shares_jacobian M x j l).
Proof.
  intros V G Hj Hl. unfold shares_at.
  eapply dlim_eq; [|apply (dlim_sumn (fI M) (fun i t =>
     probs (fm M) (update_delta M (upd x l t)) (update_mu M (upd x l t)) i j * fw M i) (x l)
     (fun i => prob_slope (fm M) (probs (fm M) (update_delta M x) (update_mu M x) i)
       (conds (fm M) (update_delta M x) (update_mu M x) i)
       (fun k => if Nat.eqb k l then utility_derivatives M false x i k else 0) j * fw M i))].
  - unfold shares_jacobian, jacobian_of, capital_lamda, capital_gamma.
    set (P := probs (fm M) (update_delta M x) (update_mu M x)).
    set (C := conds (fm M) (update_delta M x) (update_mu M x)).
    set (U := utility_derivatives M false x).
    rewrite (sumn_ext (fI M) _ (fun i =>
      (if Nat.eqb j l then (if Nat.eqb (mH (fm M)) 0 then P i j * U i j * fw M i
                            else P i j * U i j * fw M i * / (1 - rho (fm M) j)) else 0)
      - (if Nat.eqb (mH (fm M)) 0 then P i j * (fw M i * (P i l * U i l))
         else P i j * (fw M i * (P i l * U i l))
              + rho (fm M) j / (1 - rho (fm M) j) * membership (fm M) j l
                * (C i j * (fw M i * (P i l * U i l)))))).
    + rewrite sumn_minus. f_equal.
      * destruct (Nat.eqb j l); [|apply sumn_zero].
        destruct (Nat.eqb (mH (fm M)) 0); [reflexivity|]. apply sumn_scal_r.
      * destruct (Nat.eqb (mH (fm M)) 0); [reflexivity|].
        rewrite sumn_plus, sumn_scal. reflexivity.
    + intros i Hi.
      assert (E := prob_slope_single (fm M) true (update_delta M x) (update_mu M x i) (U i l) l j V Hj Hl).
      cbv zeta in E.
      change (fst (probabilities_linear (fm M) full_choice true (update_delta M x) (update_mu M x i))) with (P i) in E.
      change (cond_of (probabilities_linear (fm M) full_choice true (update_delta M x) (update_mu M x i))) with (C i) in E.
      replace (prob_slope (fm M) (P i) (C i) (fun k => if Nat.eqb k l then U i k else 0) j)
        with (prob_slope (fm M) (P i) (C i) (fun k => if Nat.eqb k l then U i l else 0) j).
      2:{ unfold prob_slope.
          assert (EU : forall k, (if Nat.eqb k l then U i l else 0) = (if Nat.eqb k l then U i k else 0)).
          { intros k. destruct (Nat.eqb_spec k l); subst; reflexivity. }
          rewrite (EU j).
          rewrite (sumn_ext (mJ (fm M)) (fun k => membership (fm M) j k * (C i k * (if Nat.eqb k l then U i l else 0)))
             (fun k => membership (fm M) j k * (C i k * (if Nat.eqb k l then U i k else 0))))
            by (intros; rewrite EU; reflexivity).
          rewrite (sumn_ext (mJ (fm M)) (fun k => P i k * (if Nat.eqb k l then U i l else 0))
             (fun k => P i k * (if Nat.eqb k l then U i k else 0)))
            by (intros; rewrite EU; reflexivity).
          reflexivity. }
      rewrite E. destruct (Nat.eqb_spec j l) as [->|Hne], (Nat.eqb (mH (fm M)) 0);
        unfold Rdiv; ring.
  - intros i Hi. apply dlim_scal_r. apply prob_derive_var; assumption.
Qed.

(** Derivative of a firm's weighted profit with respect to the price of product j. *)
Lemma weighted_profit_derive J O costs s p D j :
  (j < J)%nat -> (forall k, (k < J)%nat -> derivable_pt_lim (fun t => s (upd p j t) k) (p j) (D k j)) ->
  (forall k, (k < J)%nat -> s (upd p j (p j)) k = s p k) ->
  derivable_pt_lim (fun t => weighted_profit J O costs s (upd p j t) j) (p j)
    (O j j * s p j + sumn J (fun k => O j k * D k j * (p k - costs k))).
Proof.
  intros Hj HD Hs. unfold weighted_profit.
  eapply dlim_eq; [|apply (dlim_sumn J (fun k t => O j k * (upd p j t k - costs k) * s (upd p j t) k) (p j)
    (fun k => (if Nat.eqb k j then O j k * s p k else 0) + O j k * D k j * (p k - costs k)))].
  - rewrite sumn_plus. f_equal. apply (sumn_delta J j (fun k => O j k * s p k) Hj).
  - intros k Hk.
    apply dlim_eq with ((O j k * ((if Nat.eqb k j then 1 else 0) - 0)) * s (upd p j (p j)) k
                        + (O j k * (upd p j (p j) k - costs k)) * D k j).
    + rewrite upd_same, (Hs k Hk). destruct (Nat.eqb k j); ring.
    + apply (dlim_mult (fun t => O j k * (upd p j t k - costs k)) (fun t => s (upd p j t) k)).
      * apply (dlim_scal (O j k) (fun t => upd p j t k - costs k)).
        apply dlim_minus; [apply upd_derive|apply dlim_const].
      * apply HD; assumption.
Qed.

Lemma shares_upd_same M x l j :
  valid_market (fm M) -> (j < mJ (fm M))%nat -> shares_at M (upd x l (x l)) j = shares_at M x j.
Proof.
  intros V Hj. unfold shares_at, probs. apply sumn_ext; intros i Hi. f_equal.
  apply probabilities_ext; try assumption. intros; apply utility_upd_same.
Qed.

Lemma bertrand_iff_markup M O costs x :
  valid_market (fm M) -> good_columns M x ->
  (forall j, (j < mJ (fm M))%nat -> O j j = 1) ->
  bertrand (mJ (fm M)) O costs (shares_at M) x <->
  markup_equation (mJ (fm M)) O (shares_jacobian M x) (shares_at M x) (fun j => x j - costs j).
Proof.
  intros V G HO. unfold bertrand, markup_equation.
  assert (HD : forall j, (j < mJ (fm M))%nat ->
    derivable_pt_lim (fun t => weighted_profit (mJ (fm M)) O costs (shares_at M) (upd x j t) j) (x j)
      (shares_at M x j + sumn (mJ (fm M)) (fun k => O j k * shares_jacobian M x k j * (x k - costs k)))).
  { intros j Hj. eapply dlim_eq; [|apply (weighted_profit_derive _ O costs (shares_at M) x (shares_jacobian M x) j Hj)].
    - rewrite (HO j Hj). ring.
    - intros k Hk. apply jacobian_is_derivative; assumption.
    - intros k Hk. apply shares_upd_same; assumption. }
  split; intros H j Hj.
  - apply (dlim_unique _ _ _ _ (HD j Hj) (H j Hj)).
  - eapply dlim_eq; [|apply (HD j Hj)]. apply H; assumption.
Qed.

(** What a successful linear solve returns. *)
Definition solves (J : nat) (A : nat -> nat -> R) (b x : nat -> R) : Prop :=
  forall j, (j < J)%nat -> sumn J (fun k => A j k * x k) = b j.

(** The solver is exact whenever it does not report a replacement. *)
Definition exact_solver (J : nat) (solve : solver) : Prop :=
  forall A b, snd (solve A b) = false -> solves J A b (fst (solve A b)).

Lemma capital_delta_jacobian M O x j k :
  capital_delta M O x j k = - (O j k * shares_jacobian M x k j).
Proof.
  unfold capital_delta, shares_jacobian, jacobian_of, gamma_at, lamda_at.
  destruct (Nat.eqb k j); ring.
Qed.

Lemma costs_markup_equation solve M O observed :
  exact_solver (mJ (fm M)) solve ->
  snd (compute_costs solve M O observed) = false ->
  markup_equation (mJ (fm M)) O (shares_jacobian M (var0 M)) observed
    (fun j => var0 M j - fst (compute_costs solve M O observed) j).
Proof.
  intros HS HB. unfold compute_costs, compute_eta in *.
  specialize (HS (capital_delta M O (var0 M)) observed).
  destruct (solve (capital_delta M O (var0 M)) observed) as [eta bad]. cbn [fst snd] in *.
  intros j Hj. specialize (HS HB j Hj). rewrite <- HS.
  rewrite <- sumn_plus. transitivity (sumn (mJ (fm M)) (fun _ => 0)); [|apply sumn_zero].
  apply sumn_ext; intros k Hk. rewrite capital_delta_jacobian. ring.
Qed.

Lemma costs_bertrand solve M O observed :
  valid_market (fm M) -> good_columns M (var0 M) -> exact_solver (mJ (fm M)) solve ->
  (forall j, (j < mJ (fm M))%nat -> O j j = 1) ->
  (forall j, (j < mJ (fm M))%nat -> observed j = shares_at M (var0 M) j) ->
  snd (compute_costs solve M O observed) = false ->
  bertrand (mJ (fm M)) O (fst (compute_costs solve M O observed)) (shares_at M) (var0 M).
Proof.
  intros V G HS HO Hobs HB. apply bertrand_iff_markup; try assumption.
  intros j Hj. rewrite <- (Hobs j Hj). apply (costs_markup_equation solve M O observed HS HB j Hj).
Qed.

Lemma approximate_prices_roundtrip solve M O observed costs :
  costs = None \/ costs = Some (fst (compute_costs solve M O observed)) ->
  forall j, fst (compute_approximate_prices solve M O O observed costs) j = var0 M j.
Proof.
  intros Hc j. unfold compute_approximate_prices, compute_costs in *.
  destruct (compute_eta solve M O observed) as [eta bad] eqn:E. cbn [fst] in *.
  destruct Hc as [-> | ->]; rewrite ?E; cbn [fst]; ring.
Qed.

(** The zeta contraction. *)
Lemma zeta_gradient M O costs x j :
  (forall j k, (j < mJ (fm M))%nat -> (k < mJ (fm M))%nat -> O j k = O k j) ->
  (forall j, (j < mJ (fm M))%nat -> O j j = 1) ->
  (j < mJ (fm M))%nat -> lamda_at M x j <> 0 ->
  shares_at M x j + sumn (mJ (fm M)) (fun k => O j k * shares_jacobian M x k j * (x k - costs k))
  = lamda_at M x j * (x j - price_contraction M O costs x j).
Proof.
  intros HS HO Hj Hl.
  assert (E : sumn (mJ (fm M)) (fun k => O j k * shares_jacobian M x k j * (x k - costs k))
    = lamda_at M x j * (x j - costs j)
      - sumn (mJ (fm M)) (fun k => O k j * gamma_at M x k j * (x k - costs k))).
  { rewrite (sumn_ext _ _ (fun k => (if Nat.eqb k j then lamda_at M x k * (x k - costs k) else 0)
                                - O k j * gamma_at M x k j * (x k - costs k))).
    - rewrite sumn_minus. f_equal. apply (sumn_delta _ j (fun k => lamda_at M x k * (x k - costs k)) Hj).
    - intros k Hk. rewrite (HS j k Hj Hk). unfold shares_jacobian, jacobian_of.
      fold (lamda_at M x k). fold (gamma_at M x k j).
      destruct (Nat.eqb_spec k j) as [->|Hne]; [rewrite (HO j Hj)|]; ring. }
  rewrite E. unfold price_contraction, zeta, lamda_inv.
  destruct (Req_EM_T (lamda_at M x j) 0) as [E0|_]; [contradiction|].
  field. assumption.
Qed.

Lemma zeta_fixed_iff M O costs x :
  (forall j k, (j < mJ (fm M))%nat -> (k < mJ (fm M))%nat -> O j k = O k j) ->
  (forall j, (j < mJ (fm M))%nat -> O j j = 1) ->
  (forall j, (j < mJ (fm M))%nat -> lamda_at M x j <> 0) ->
  (forall j, (j < mJ (fm M))%nat -> price_contraction M O costs x j = x j) <->
  markup_equation (mJ (fm M)) O (shares_jacobian M x) (shares_at M x) (fun j => x j - costs j).
Proof.
  intros HS HO Hl. unfold markup_equation. split; intros H j Hj.
  - rewrite zeta_gradient by auto. rewrite (H j Hj). ring.
  - specialize (H j Hj). rewrite zeta_gradient in H by auto.
    apply Rmult_integral in H. destruct H as [H|H]; [apply (Hl j Hj) in H; contradiction|]. lra.
Qed.

(** Capital lambda is negative when everyone dislikes higher prices. *)
Lemma probs_pos m delta mu i j : valid_market m -> (j < mJ m)%nat -> 0 < probs m delta mu i j.
Proof.
  intros V Hj. unfold probs. rewrite full_choice_with, probabilities_nested by assumption.
  apply nested_pos; [assumption|apply gidx_lt; assumption|reflexivity].
Qed.

Lemma lamda_negative M x j :
  valid_market (fm M) -> (j < mJ (fm M))%nat -> (0 < fI M)%nat ->
  (forall i, (i < fI M)%nat -> 0 < fw M i) ->
  (forall i, (i < fI M)%nat -> utility_derivatives M false x i j < 0) ->
  lamda_at M x j < 0.
Proof.
  intros V Hj HI Hw Hu. unfold lamda_at, capital_lamda.
  set (d := sumn (fI M) _).
  assert (Hd : d < 0).
  { assert (0 < - d); [|lra]. unfold d. rewrite <- sumn_opp. 
    assert (X : forall i, (i < fI M)%nat ->
      0 < - (probs (fm M) (update_delta M x) (update_mu M x) i j * utility_derivatives M false x i j * fw M i)).
    { intros i Hi. assert (A := probs_pos (fm M) (update_delta M x) (update_mu M x) i j V Hj).
      assert (B := Hu i Hi). assert (C := Hw i Hi).
      set (a := probs _ _ _ _ _) in *. set (b := utility_derivatives _ _ _ _ _) in *.
      assert (0 < a * (- b) * fw M i); [|lra].
      apply Rmult_lt_0_compat; [apply Rmult_lt_0_compat|]; lra. }
    apply sumn_pos; [intros; left; auto|]. exists O. split; [assumption|apply X; assumption]. }
  destruct (Nat.eqb_spec (mH (fm M)) 0) as [HH|HH]; [assumption|].
  assert (Hr : rho (fm M) j < 1).
  { unfold rho. apply (vm_rho _ V HH). apply (vm_gid _ V HH); assumption. }
  unfold Rdiv. assert (0 < / (1 - rho (fm M) j)) by (apply Rinv_0_lt_compat; lra).
  assert (0 < (- d) * / (1 - rho (fm M) j)) by (apply Rmult_lt_0_compat; lra). lra.
Qed.

(** Diversion ratios. *)
Lemma diversion_rows J jac j :
  (j < J)%nat -> jac j j <> 0 -> sumn J (diversion_ratios J jac j) = 1.
Proof.
  intros Hj Hd.
  rewrite (sumn_ext J _ (fun k => (if Nat.eqb k j then (sumn J (jac j) + jac j k) / jac j j else 0)
                                  + - / jac j j * jac j k)).
  - rewrite sumn_plus, sumn_scal.
    rewrite (sumn_delta J j (fun k => (sumn J (jac j) + jac j k) / jac j j) Hj). field. assumption.
  - intros k Hk. unfold diversion_ratios. rewrite Nat.eqb_sym.
    destruct (Nat.eqb_spec k j) as [->|Hne]; field; assumption.
Qed.

Lemma diversion_symmetric J jac j k :
  (forall a b, (a < J)%nat -> (b < J)%nat -> jac a b = jac b a) ->
  (j < J)%nat -> (k < J)%nat -> diversion_ratios J jac j k = diversion J jac j k.
Proof.
  intros HS Hj Hk. unfold diversion_ratios, diversion.
  destruct (Nat.eqb_spec j k) as [->|Hne].
  - rewrite (sumn_ext J (jac k) (fun i => jac i k)) by (intros; apply HS; assumption). reflexivity.
  - rewrite (HS j k Hj Hk). reflexivity.
Qed.

(** Shares when only agent utilities in the direction of product l move, with slopes U i l. *)
Lemma shares_derive_gen m I w (delta : R -> nat -> R) (mu : R -> nat -> nat -> R) t U j l :
  valid_market m -> (j < mJ m)%nat -> (l < mJ m)%nat ->
  (forall i k, (i < I)%nat -> (k < mJ m)%nat ->
     derivable_pt_lim (fun y => utility m (delta y) (mu y i) k) t (if Nat.eqb k l then U i l else 0)) ->
  derivable_pt_lim (fun y => sumn I (fun i => probs m (delta y) (mu y) i j * w i)) t
    (jacobian_of m I w (probs m (delta t) (mu t)) (conds m (delta t) (mu t)) U j l).
Proof.
  intros V Hj Hl HU.
  set (P := probs m (delta t) (mu t)). set (C := conds m (delta t) (mu t)).
  eapply dlim_eq; [|apply (dlim_sumn I (fun i y => probs m (delta y) (mu y) i j * w i) t
     (fun i => prob_slope m (P i) (C i) (fun k => if Nat.eqb k l then U i l else 0) j * w i))].
  - unfold jacobian_of, capital_lamda, capital_gamma.
    rewrite (sumn_ext I _ (fun i =>
      (if Nat.eqb j l then (if Nat.eqb (mH m) 0 then P i j * U i j * w i
                            else P i j * U i j * w i * / (1 - rho m j)) else 0)
      - (if Nat.eqb (mH m) 0 then P i j * (w i * (P i l * U i l))
         else P i j * (w i * (P i l * U i l))
              + rho m j / (1 - rho m j) * membership m j l
                * (C i j * (w i * (P i l * U i l)))))).
    + rewrite sumn_minus. f_equal.
      * destruct (Nat.eqb j l); [|apply sumn_zero].
        destruct (Nat.eqb (mH m) 0); [reflexivity|]. apply sumn_scal_r.
      * destruct (Nat.eqb (mH m) 0); [reflexivity|].
        rewrite sumn_plus, sumn_scal. reflexivity.
    + intros i Hi.
      assert (E := prob_slope_single m true (delta t) (mu t i) (U i l) l j V Hj Hl).
      cbv zeta in E.
      change (fst (probabilities_linear m full_choice true (delta t) (mu t i))) with (P i) in E.
      change (cond_of (probabilities_linear m full_choice true (delta t) (mu t i))) with (C i) in E.
      rewrite E. destruct (Nat.eqb_spec j l) as [->|Hne], (Nat.eqb (mH m) 0);
        unfold Rdiv; ring.
  - intros i Hi. apply dlim_scal_r. unfold P, C, probs.
    apply (prob_derive m true delta (fun y => mu y i) t
             (fun k => if Nat.eqb k l then U i l else 0) j V Hj).
    intros k Hk. apply HU; assumption.
Qed.

(** Derivative of shares with respect to mean utilities. *)
Lemma delta_curve m delta mu l k :
  valid_market m -> derivable_pt_lim (fun t => utility m (upd delta l t) mu k) (delta l)
    (if Nat.eqb k l then 1 / eps_scale m else 0).
Proof.
  intros V. unfold utility. assert (E0 := vm_eps _ V).
  apply dlim_eq with (((if Nat.eqb k l then 1 else 0) + 0) * / eps_scale m).
  { destruct (Nat.eqb k l); unfold Rdiv; ring. }
  apply (dlim_scal_r (/ eps_scale m) (fun t => upd delta l t k + mu k)).
  apply dlim_plus; [apply upd_derive|apply dlim_const].
Qed.

Lemma jacobian_of_ext m I w P C U P' C' U' j l :
  (forall i k, (i < I)%nat -> k = j \/ k = l -> P i k = P' i k /\ C i k = C' i k /\ U i k = U' i k) ->
  jacobian_of m I w P C U j l = jacobian_of m I w P' C' U' j l.
Proof.
  intros E. unfold jacobian_of, capital_lamda, capital_gamma.
  rewrite (sumn_ext I (fun i => P i j * U i j * w i) (fun i => P' i j * U' i j * w i)).
  2:{ intros i Hi. destruct (E i j Hi (or_introl eq_refl)) as [-> [_ ->]]. reflexivity. }
  rewrite (sumn_ext I (fun i => P i j * (w i * (P i l * U i l))) (fun i => P' i j * (w i * (P' i l * U' i l)))).
  2:{ intros i Hi. destruct (E i j Hi (or_introl eq_refl)) as [-> _].
      destruct (E i l Hi (or_intror eq_refl)) as [-> [_ ->]]. reflexivity. }
  rewrite (sumn_ext I (fun i => C i j * (w i * (P i l * U i l))) (fun i => C' i j * (w i * (P' i l * U' i l)))).
  2:{ intros i Hi. destruct (E i j Hi (or_introl eq_refl)) as [_ [-> _]].
      destruct (E i l Hi (or_intror eq_refl)) as [-> [_ ->]]. reflexivity. }
  reflexivity.
Qed.

Lemma shares_by_delta m I w mu delta j l :
  valid_market m -> (j < mJ m)%nat -> (l < mJ m)%nat ->
  derivable_pt_lim (fun t => sumn I (fun i => probs m (upd delta l t) mu i j * w i)) (delta l)
    (jacobian_of m I w (probs m delta mu) (conds m delta mu) (fun _ _ => 1 / eps_scale m) j l).
Proof.
  intros V Hj Hl.
  eapply dlim_eq; [|apply (shares_derive_gen m I w (fun t => upd delta l t) (fun _ => mu) (delta l)
                            (fun _ _ => 1 / eps_scale m) j l V Hj Hl)].
  - apply jacobian_of_ext. intros i k Hi Hk.
    assert (Hk' : (k < mJ m)%nat) by (destruct Hk; subst; assumption).
    assert (E : forall a, (a < mJ m)%nat -> utility m (upd delta l (delta l)) (mu i) a = utility m delta (mu i) a).
    { intros a _. unfold utility. rewrite upd_same. reflexivity. }
    repeat split.
    + apply probabilities_ext; assumption.
    + rewrite !conds_cond. apply cond_ext; assumption.
  - intros i k Hi Hk. apply (delta_curve m delta (mu i) l k V).
Qed.

(** The Jacobian is symmetric when each agent's marginal utility is the same for all products. *)
Lemma jacobian_symmetric m I w delta mu U j k :
  valid_market m -> (j < mJ m)%nat -> (k < mJ m)%nat ->
  (forall i, (i < I)%nat -> U i j = U i k) ->
  jacobian_of m I w (probs m delta mu) (conds m delta mu) U j k
  = jacobian_of m I w (probs m delta mu) (conds m delta mu) U k j.
Proof.
  intros V Hj Hk HU. unfold jacobian_of. rewrite (Nat.eqb_sym k j).
  destruct (Nat.eqb_spec j k) as [->|Hne]; [reflexivity|]. f_equal.
  unfold capital_gamma. destruct (Nat.eqb_spec (mH m) 0) as [HH|HH].
  - apply sumn_ext; intros i Hi. rewrite (HU i Hi). ring.
  - f_equal.
    + apply sumn_ext; intros i Hi. rewrite (HU i Hi). ring.
    + unfold membership. rewrite (Nat.eqb_sym (gid m k)).
      destruct (Nat.eqb_spec (gid m j) (gid m k)) as [E|E]; [|ring].
      unfold rho. rewrite E. f_equal. apply sumn_ext; intros i Hi. rewrite (HU i Hi).
      assert (X := cond_exchange m true delta (mu i) j k V HH Hj Hk E). cbv zeta in X.
      change (fst (probabilities_linear m full_choice true delta (mu i))) with (probs m delta mu i) in X.
      change (cond_of (probabilities_linear m full_choice true delta (mu i))) with (conds m delta mu i) in X.
      transitivity (w i * U i k * (conds m delta mu i j * probs m delta mu i k)); [ring|].
      rewrite <- X. ring.
Qed.

(** Profit Jacobian. *)
Lemma profit_jacobian_derivative M costs x j k :
  valid_market (fm M) -> good_columns M x -> (j < mJ (fm M))%nat -> (k < mJ (fm M))%nat ->
  derivable_pt_lim (fun t => (upd x k t j - costs j) * shares_at M (upd x k t) j) (x k)
    (profit_jacobian M costs x j k).
Proof.
  intros V G Hj Hk. unfold profit_jacobian.
  eapply dlim_eq; [|apply (dlim_mult (fun t => upd x k t j - costs j) (fun t => shares_at M (upd x k t) j));
    [apply dlim_minus; [apply upd_derive|apply dlim_const] | apply jacobian_is_derivative; assumption]].
  cbv beta. rewrite upd_same, shares_upd_same by assumption. destruct (Nat.eqb j k); ring.
Qed.

(** Concrete markets for examples and counterexamples: utilities zero, so that probabilities are
    1 / (1 + J), and prices enter X1 linearly with coefficient -c_j. *)
Definition flat_market (J : nat) (c : nat -> R) : full_market :=
  mk_full_market (mk_market J 0 (fun _ => O) false (fun _ => 0) 1) 1 (fun _ => 1)
    1 (fun _ => mk_column true (fun j x => c j * x) (fun j x => c j) (fun j x => 0)) (fun _ => - (1))
    0 (fun _ => mk_column false (fun _ _ => 0) (fun _ _ => 0) (fun _ _ => 0)) (fun _ _ _ => 0)
    (fun _ => 0) (fun _ => 0) (fun _ _ => 0).

Lemma flat_valid J c : (0 < J)%nat -> valid_market (fm (flat_market J c)).
Proof. intros HJ. constructor; simpl; try lra; try lia; try contradiction; intros; try reflexivity. Qed.

Lemma flat_good J c x : good_columns (flat_market J c) x.
Proof.
  split; intros k j Hu Hk Hj; [|simpl in Hk; lia]. simpl.
  apply dlim_eq with (c j * 1); [ring|]. apply dlim_scal, dlim_id.
Qed.

Lemma flat_utility J c j :
  utility (fm (flat_market J c)) (update_delta (flat_market J c) (fun _ => 0))
    (update_mu (flat_market J c) (fun _ => 0) 0) j = 0.
Proof. unfold utility, update_delta, update_mu, compute_mu; simpl. field. Qed.

Lemma flat_prob J c i j : (j < J)%nat ->
  probs (fm (flat_market J c)) (update_delta (flat_market J c) (fun _ => 0))
    (update_mu (flat_market J c) (fun _ => 0)) i j = / (1 + INR J).
Proof.
  intros Hj. unfold probs. rewrite full_choice_with.
  destruct (probabilities_spec (fm (flat_market J c)) true true None None None
      (update_delta (flat_market J c) (fun _ => 0)) (update_mu (flat_market J c) (fun _ => 0) i)
      (flat_valid J c ltac:(lia))) as [A _].
  destruct (A eq_refl) as [A1 _]. rewrite (A1 j Hj). rewrite included_all.
  unfold logit, all_goods. simpl indR. change (mJ (fm (flat_market J c))) with J.
  assert (EU : forall k, exp (utility (fm (flat_market J c)) (update_delta (flat_market J c) (fun _ => 0))
     (update_mu (flat_market J c) (fun _ => 0) i) k) = 1).
  { intros k. rewrite <- exp_0. f_equal. apply flat_utility. }
  rewrite EU. rewrite (sumn_ext J _ (fun _ => 1)) by (intros; apply EU).
  rewrite sumn_const. rewrite Rmult_1_r. unfold Rdiv. ring.
Qed.

Lemma flat_derivative J c x i j : utility_derivatives (flat_market J c) false x i j = - c j.
Proof. unfold utility_derivatives; simpl. destruct (Req_EM_T 1 1); field. Qed.

Lemma flat_lamda J c j : (j < J)%nat -> lamda_at (flat_market J c) (fun _ => 0) j = - c j / (1 + INR J).
Proof.
  intros Hj. unfold lamda_at, capital_lamda.
  assert (HP := flat_prob J c 0 j Hj). assert (HU := flat_derivative J c (fun _ => 0) 0 j).
  set (P := probs _ _ _) in *. set (U := utility_derivatives _ _ _) in *. clearbody P U.
  simpl. rewrite HP, HU. unfold Rdiv. ring.
Qed.

Lemma flat_gamma J c j k : (j < J)%nat -> (k < J)%nat ->
  gamma_at (flat_market J c) (fun _ => 0) j k = - c k / ((1 + INR J) * (1 + INR J)).
Proof.
  intros Hj Hk. unfold gamma_at, capital_gamma.
  assert (HP := flat_prob J c 0 j Hj). assert (HP2 := flat_prob J c 0 k Hk).
  assert (HU := flat_derivative J c (fun _ => 0) 0 k).
  set (P := probs _ _ _) in *. set (U := utility_derivatives _ _ _) in *. clearbody P U.
  simpl. rewrite HP, HP2, HU. assert (0 <= INR J) by apply pos_INR. field. lra.
Qed.

Lemma flat_shares J c j : (j < J)%nat -> shares_at (flat_market J c) (fun _ => 0) j = / (1 + INR J).
Proof.
  intros Hj. unfold shares_at. assert (HP := flat_prob J c 0 j Hj).
  set (P := probs _ _ _) in *. clearbody P. simpl. rewrite HP. ring.
Qed.

Lemma flat_jacobian J c j k : (j < J)%nat -> (k < J)%nat ->
  shares_jacobian (flat_market J c) (fun _ => 0) j k
  = (if Nat.eqb j k then - c j / (1 + INR J) else 0) + c k / ((1 + INR J) * (1 + INR J)).
Proof.
  intros Hj Hk. unfold shares_jacobian, jacobian_of.
  fold (lamda_at (flat_market J c) (fun _ => 0) j). fold (gamma_at (flat_market J c) (fun _ => 0) j k).
  rewrite flat_gamma by assumption. assert (0 <= INR J) by apply pos_INR.
  destruct (Nat.eqb j k); rewrite ?flat_lamda by assumption; field; lra.
Qed.

(** Ownership matrices for the counterexamples. *)
Definition one_sided (j k : nat) : R := if (Nat.eqb j 1 && Nat.eqb k 0)%bool then 0 else 1.
Definition half_owner (j k : nat) : R := / 2.

Ltac flat_simpl :=
  simpl; rewrite ?flat_shares, ?flat_jacobian by lia; simpl.

Lemma zeta_asymmetric_refuted :
  exists M O costs x,
    valid_market (fm M) /\ good_columns M x /\
    (forall j, (j < mJ (fm M))%nat -> O j j = 1) /\
    (forall j, (j < mJ (fm M))%nat -> lamda_at M x j < 0) /\
    markup_equation (mJ (fm M)) O (shares_jacobian M x) (shares_at M x) (fun j => x j - costs j) /\
    ~ (forall j, (j < mJ (fm M))%nat -> price_contraction M O costs x j = x j).
Proof.
  exists (flat_market 2 (fun _ => 1)), one_sided,
    (fun j => if Nat.eqb j 0 then - (9 / 4) else - (3 / 2)), (fun _ => 0).
  change (mJ (fm (flat_market 2 (fun _ => 1)))) with 2%nat.
  split; [apply flat_valid; lia|]. split; [apply flat_good|].
  split; [intros [|[|j]] Hj; try lia; reflexivity|].
  split; [intros j Hj; rewrite flat_lamda by assumption; simpl; lra|].
  split.
  - intros j Hj. rewrite flat_shares by assumption.
    rewrite (sumn_ext 2 _ (fun k => one_sided j k * ((if Nat.eqb k j then - 1 / (1 + INR 2) else 0)
       + 1 / ((1 + INR 2) * (1 + INR 2))) * (0 - (if Nat.eqb k 0 then - (9/4) else - (3/2)))))
      by (intros k Hk; rewrite flat_jacobian by assumption; reflexivity).
    destruct j as [|[|j]]; [| |lia]; simpl; unfold one_sided; simpl; field.
  - intros H. specialize (H O ltac:(lia)). revert H.
    unfold price_contraction, zeta. rewrite flat_lamda, flat_shares by lia.
    change (mJ (fm (flat_market 2 (fun _ => 1)))) with 2%nat.
    rewrite (sumn_ext 2 _ (fun k => one_sided k 0 * (- 1 / ((1 + INR 2) * (1 + INR 2)))
       * (0 - (if Nat.eqb k 0 then - (9/4) else - (3/2)))))
      by (intros k Hk; rewrite flat_gamma by lia; reflexivity).
    unfold lamda_inv. destruct (Req_EM_T (- (1) / (1 + INR 2)) 0) as [E|E]; simpl in *; [lra|].
    unfold one_sided; simpl. intros H.
    assert (X : 1 / (- (1) / (1 + (1 + 1))) = - 3) by field. rewrite X in H. lra.
Qed.

Lemma zeta_diagonal_refuted :
  exists M O costs x,
    valid_market (fm M) /\ good_columns M x /\
    (forall j k, O j k = O k j) /\
    (forall j, (j < mJ (fm M))%nat -> lamda_at M x j < 0) /\
    markup_equation (mJ (fm M)) O (shares_jacobian M x) (shares_at M x) (fun j => x j - costs j) /\
    ~ (forall j, (j < mJ (fm M))%nat -> price_contraction M O costs x j = x j).
Proof.
  exists (flat_market 1 (fun _ => 1)), half_owner, (fun j => - (4)), (fun _ => 0).
  change (mJ (fm (flat_market 1 (fun _ => 1)))) with 1%nat.
  split; [apply flat_valid; lia|]. split; [apply flat_good|].
  split; [reflexivity|].
  split; [intros j Hj; rewrite flat_lamda by assumption; simpl; lra|].
  split.
  - intros j Hj. rewrite flat_shares by assumption. assert (j = O) by lia; subst j.
    simpl sumn. rewrite flat_jacobian by lia. unfold half_owner. simpl. field.
  - intros H. specialize (H O ltac:(lia)). revert H.
    unfold price_contraction, zeta. rewrite flat_lamda, flat_shares by lia.
    change (mJ (fm (flat_market 1 (fun _ => 1)))) with 1%nat.
    simpl sumn. rewrite flat_gamma by lia.
    unfold lamda_inv. destruct (Req_EM_T (- (1) / (1 + INR 1)) 0) as [E|E]; simpl in *; [lra|].
    unfold half_owner; simpl. intros H.
    assert (X : 1 / (- (1) / (1 + 1)) = - 2) by field. rewrite X in H. lra.
Qed.

(** Diversion ratios with an asymmetric Jacobian: the price of product 1 hurts twice as much. *)
Definition twice (j : nat) : R := if Nat.eqb j 1 then 2 else 1.

Lemma diversion_refuted :
  exists M j k, valid_market (fm M) /\ good_columns M (var0 M) /\ (j < mJ (fm M))%nat /\ (k < mJ (fm M))%nat /\
    shares_jacobian M (var0 M) j j < 0 /\
    diversion_ratios (mJ (fm M)) (shares_jacobian M (var0 M)) j k
    <> diversion (mJ (fm M)) (shares_jacobian M (var0 M)) j k.
Proof.
  exists (flat_market 2 twice), O, 1%nat.
  change (mJ (fm (flat_market 2 twice))) with 2%nat.
  change (var0 (flat_market 2 twice)) with (fun _ : nat => 0).
  split; [apply flat_valid; lia|]. split; [apply flat_good|]. split; [lia|]. split; [lia|].
  rewrite flat_jacobian by lia. split; [unfold twice; simpl; lra|].
  unfold diversion_ratios, diversion. cbn [Nat.eqb]. rewrite !flat_jacobian by lia.
  unfold twice; simpl. intros H.
  assert (X : - (0 + 2 / ((1 + (1 + 1)) * (1 + (1 + 1)))) / (- (1) / (1 + (1 + 1)) + 1 / ((1 + (1 + 1)) * (1 + (1 + 1)))) = 1) by field.
  assert (Y : - (0 + 1 / ((1 + (1 + 1)) * (1 + (1 + 1)))) / (- (1) / (1 + (1 + 1)) + 1 / ((1 + (1 + 1)) * (1 + (1 + 1)))) = / 2) by field.
  lra.
Qed.

(** Elasticities with respect to mean utilities under an epsilon scale. *)
Lemma delta_elasticities_derivative m a delta observed j k :
  valid_market m -> (j < mJ m)%nat -> (k < mJ m)%nat -> observed j <> 0 ->
  derivable_pt_lim (fun t => sumn (aI a) (fun i => probs m (upd delta k t) (amu a) i j * aw a i)) (delta k)
    (jacobian_of m (aI a) (aw a) (probs m delta (amu a)) (conds m delta (amu a)) (fun _ _ => 1) j k
     / eps_scale m).
Proof.
  intros V Hj Hk Ho. eapply dlim_eq; [|apply shares_by_delta; assumption].
  unfold jacobian_of, capital_lamda, capital_gamma. assert (E0 := vm_eps _ V).
  set (P := probs m delta (amu a)). set (C := conds m delta (amu a)).
  assert (E1 : sumn (aI a) (fun i => P i j * (1 / eps_scale m) * aw a i)
               = sumn (aI a) (fun i => P i j * 1 * aw a i) / eps_scale m).
  { unfold Rdiv. rewrite <- sumn_scal_r. apply sumn_ext; intros; ring. }
  assert (E2 : sumn (aI a) (fun i => P i j * (aw a i * (P i k * (1 / eps_scale m))))
               = sumn (aI a) (fun i => P i j * (aw a i * (P i k * 1))) / eps_scale m).
  { unfold Rdiv. rewrite <- sumn_scal_r. apply sumn_ext; intros; ring. }
  assert (E3 : sumn (aI a) (fun i => C i j * (aw a i * (P i k * (1 / eps_scale m))))
               = sumn (aI a) (fun i => C i j * (aw a i * (P i k * 1))) / eps_scale m).
  { unfold Rdiv. rewrite <- sumn_scal_r. apply sumn_ext; intros; ring. }
  rewrite E1, E2, E3. unfold Rdiv.
  destruct (Nat.eqb j k), (Nat.eqb (mH m) 0); ring.
Qed.

Definition half_eps_market : market := mk_market 1 0 (fun _ => O) false (fun _ => 0) (/ 2).
Definition single_agent : agents := mk_agents 1 (fun _ => 1) (fun _ _ => - (1)).

Lemma half_eps_valid : valid_market half_eps_market.
Proof. constructor; simpl; try lra; try lia; try contradiction; intros; reflexivity. Qed.

Lemma delta_elasticities_refuted :
  exists m a delta D, valid_market m /\
    (forall j, (j < mJ m)%nat -> 0 < market_shares m a true delta j) /\
    derivable_pt_lim (fun t => market_shares m a true (upd delta 0 t) 0) (delta O) D /\
    delta_elasticities m a delta (market_shares m a true delta) 0 0
    <> delta O / market_shares m a true delta 0 * D.
Proof.
  exists half_eps_market, single_agent, (fun _ => 1).
  set (m := half_eps_market). set (a := single_agent).
  exists (jacobian_of m (aI a) (aw a) (probs m (fun _ => 1) (amu a)) (conds m (fun _ => 1) (amu a)) (fun _ _ => 1) 0 0
          / eps_scale m).
  assert (V : valid_market m) by apply half_eps_valid.
  assert (HP : forall i, probs m (fun _ => 1) (amu a) i 0 = / 2).
  { intros i. unfold probs. rewrite full_choice_with.
    destruct (probabilities_spec m true true None None None (fun _ => 1) (amu a i) V) as [A _].
    destruct (A eq_refl) as [A1 _]. rewrite (A1 O) by (simpl; lia).
    unfold logit, utility, m, a; simpl. replace ((1 + - (1)) / / 2) with 0 by field. rewrite exp_0. field. }
  assert (HS : market_shares m a true (fun _ => 1) 0 = / 2).
  { transitivity (sumn 1 (fun i => probs m (fun _ => 1) (amu a) i 0 * 1)); [reflexivity|].
    cbn [sumn]. rewrite HP. ring. }
  split; [assumption|]. split; [|split].
  - intros j Hj. assert (j = O) by (simpl in Hj; lia). subst j. rewrite HS. lra.
  - apply (delta_elasticities_derivative m a (fun _ => 1) (fun _ => 1) 0 0 V); simpl; try lia; lra.
  - unfold delta_elasticities. rewrite HS.
    assert (HJ : jacobian_of m (aI a) (aw a) (probs m (fun _ => 1) (amu a)) (conds m (fun _ => 1) (amu a)) (fun _ _ => 1) 0 0 = / 4).
    { unfold jacobian_of, capital_lamda, capital_gamma. set (P := probs _ _ _) in *. simpl. rewrite HP. field. }
    rewrite HJ. simpl. lra.
Qed.

(** Statements in the form used by SupplyProps. *)
Lemma jacobian_exact M x :
  valid_market (fm M) -> good_columns M x ->
  is_jacobian (mJ (fm M)) (shares_at M) x (shares_jacobian M x).
Proof. intros V G j k Hj Hk. apply jacobian_is_derivative; assumption. Qed.

Lemma costs_any_ownership solve M O observed :
  valid_market (fm M) -> good_columns M (var0 M) -> exact_solver (mJ (fm M)) solve ->
  snd (compute_costs solve M O observed) = false ->
  exists D, is_jacobian (mJ (fm M)) (shares_at M) (var0 M) D /\
    markup_equation (mJ (fm M)) O D observed (fun j => var0 M j - fst (compute_costs solve M O observed) j).
Proof.
  intros V G HS HB. exists (shares_jacobian M (var0 M)). split; [apply jacobian_exact; assumption|].
  apply costs_markup_equation; assumption.
Qed.

Lemma contraction_fixed_iff_bertrand M O costs x :
  valid_market (fm M) -> good_columns M x ->
  (forall j k, (j < mJ (fm M))%nat -> (k < mJ (fm M))%nat -> O j k = O k j) ->
  (forall j, (j < mJ (fm M))%nat -> O j j = 1) ->
  (0 < fI M)%nat -> (forall i, (i < fI M)%nat -> 0 < fw M i) ->
  (forall i j, (i < fI M)%nat -> (j < mJ (fm M))%nat -> utility_derivatives M false x i j < 0) ->
  (forall j, (j < mJ (fm M))%nat -> price_contraction M O costs x j = x j) <->
  bertrand (mJ (fm M)) O costs (shares_at M) x.
Proof.
  intros V G HS HO HI Hw Hu. rewrite bertrand_iff_markup by assumption. apply zeta_fixed_iff; try assumption.
  intros j Hj. apply Rlt_not_eq. apply lamda_negative; auto.
Qed.

Lemma termination_is_gradient M O costs x j :
  valid_market (fm M) -> good_columns M x ->
  (forall j k, (j < mJ (fm M))%nat -> (k < mJ (fm M))%nat -> O j k = O k j) ->
  (forall j, (j < mJ (fm M))%nat -> O j j = 1) -> (j < mJ (fm M))%nat -> lamda_at M x j <> 0 ->
  exists g, derivable_pt_lim (fun t => weighted_profit (mJ (fm M)) O costs (shares_at M) (upd x j t) j) (x j) g /\
    price_weights M x j * Rabs (price_contraction M O costs x j - x j) = Rabs g.
Proof.
  intros V G HS HO Hj Hl.
  exists (lamda_at M x j * (x j - price_contraction M O costs x j)). split.
  - eapply dlim_eq; [|apply (weighted_profit_derive _ O costs (shares_at M) x (shares_jacobian M x) j Hj)].
    + rewrite (HO j Hj), Rmult_1_l. apply zeta_gradient; assumption.
    + intros k Hk. apply jacobian_is_derivative; assumption.
    + intros k Hk. apply shares_upd_same; assumption.
  - unfold price_weights. rewrite Rabs_mult. f_equal. apply Rabs_minus_sym.
Qed.

Lemma elasticities_exact M observed j k :
  valid_market (fm M) -> good_columns M (var0 M) -> (j < mJ (fm M))%nat -> (k < mJ (fm M))%nat ->
  observed j <> 0 ->
  exists D, derivable_pt_lim (fun t => shares_at M (upd (var0 M) k t) j) (var0 M k) D /\
    elasticities M observed j k = var0 M k / observed j * D.
Proof.
  intros V G Hj Hk Ho. exists (shares_jacobian M (var0 M) j k). split.
  - apply jacobian_is_derivative; assumption.
  - unfold elasticities. field. assumption.
Qed.

Lemma delta_elasticities_exact m a delta observed j k :
  valid_market m -> eps_scale m = 1 -> (j < mJ m)%nat -> (k < mJ m)%nat -> observed j <> 0 ->
  exists D, derivable_pt_lim (fun t => market_shares m a true (upd delta k t) j) (delta k) D /\
    delta_elasticities m a delta observed j k = delta k / observed j * D.
Proof.
  intros V HE Hj Hk Ho.
  eexists. split; [apply (delta_elasticities_derivative m a delta observed j k V Hj Hk Ho)|].
  rewrite HE. unfold delta_elasticities. field. assumption.
Qed.

Lemma diversion_matches M j k :
  valid_market (fm M) -> good_columns M (var0 M) ->
  (forall i a b, (i < fI M)%nat -> (a < mJ (fm M))%nat -> (b < mJ (fm M))%nat ->
     utility_derivatives M false (var0 M) i a = utility_derivatives M false (var0 M) i b) ->
  (j < mJ (fm M))%nat -> (k < mJ (fm M))%nat ->
  exists D, is_jacobian (mJ (fm M)) (shares_at M) (var0 M) D /\
    diversion_ratios (mJ (fm M)) (shares_jacobian M (var0 M)) j k = diversion (mJ (fm M)) D j k.
Proof.
  intros V G HU Hj Hk. exists (shares_jacobian M (var0 M)). split; [apply jacobian_exact; assumption|].
  apply diversion_symmetric; try assumption. intros a b Ha Hb. apply jacobian_symmetric; try assumption.
  intros i Hi. apply HU; assumption.
Qed.

Lemma prices_nonconvergence_refuted :
  exists stats, st_converged stats = false /\
    forall bad, ~ In EquilibriumPricesConvergenceError (compute_prices_errors bad stats).
Proof.
  exists (mk_stats false 5000 5000). split; [reflexivity|]. intros [|]; simpl; intuition discriminate.
Qed.

Lemma realization_reports stats :
  In EquilibriumPricesConvergenceError (realization_errors stats) <-> st_converged stats = false.
Proof.
  unfold realization_errors. destruct (st_converged stats); simpl; intuition discriminate.
Qed.

(** A solver for one-product markets, for the examples. *)
Definition scalar_solver : solver := fun A b =>
  (fun _ => b O / A O O, if Req_EM_T (A O O) 0 then true else false).
Lemma scalar_solver_exact : exact_solver 1 scalar_solver.
Proof.
  intros A b. unfold scalar_solver; cbn [fst snd]. destruct (Req_EM_T (A 0%nat 0%nat) 0); [discriminate|].
  intros _ j Hj. assert (j = O) by lia; subst. simpl. field. assumption.
Qed.
