(** Joint continuity in a parameter and mean utilities. *)
From Coq Require Import Reals Lra Lia List Bool Arith FunctionalExtensionality.
From Verif Require Import Base DemandSpec DemandModel DemandProofs DemandShares DemandElim DemandDeriv ConvProofs
  SupplyModel SupplySpec SupplyProofs DerivModel DerivProofs DerivCurve DerivParam DerivMore DerivImplicit.
Local Open Scope R_scope.

Section Cont.
  Variables (J : nat) (t : R) (d0 : nat -> R).

  Definition cont (f : R -> (nat -> R) -> R) : Prop := forall eta, 0 < eta -> exists r, 0 < r /\
    forall y d, Rabs (y - t) < r -> near J r d0 d -> Rabs (f y d - f t d0) < eta.

  Lemma at_point r : 0 < r -> Rabs (t - t) < r /\ near J r d0 d0.
  Proof. intro H. unfold Rminus. rewrite Rplus_opp_r, Rabs_R0. split; [exact H|apply near_self, H]. Qed.

  Lemma near_weaken r r' d : r <= r' -> near J r d0 d -> near J r' d0 d.
  Proof. intros L H k Hk. specialize (H k Hk). lra. Qed.

  Lemma cont_const c : cont (fun _ _ => c).
  Proof. intros eta H. exists 1. split; [lra|]. intros. unfold Rminus. rewrite Rplus_opp_r, Rabs_R0. exact H. Qed.
  Lemma cont_coordinate k : (k < J)%nat -> cont (fun _ d => d k).
  Proof. intros Hk eta H. exists eta. split; [exact H|]. intros y d _ N. apply N, Hk. Qed.
  Lemma cont_comp (g : R -> R) f : continuity_pt g (f t d0) -> cont f -> cont (fun y d => g (f y d)).
  Proof.
    intros G F eta H. destruct (G eta H) as [r [Hr C]]. destruct (F r Hr) as [r' [Hr' C']]. exists r'. split; [exact Hr'|].
    intros y d Hy Hd. specialize (C' y d Hy Hd).
    destruct (Req_dec (f y d) (f t d0)) as [->|N]; [unfold Rminus; rewrite Rplus_opp_r, Rabs_R0; exact H|].
    apply C. split; [split; [exact I|auto]|exact C'].
  Qed.
  Lemma cont_parameter (g : R -> R) : continuity_pt g t -> cont (fun y _ => g y).
  Proof.
    intro G. apply (cont_comp g (fun y _ => y)); [exact G|]. intros eta H. exists eta. split; [exact H|]. intros y d Hy _. exact Hy.
  Qed.
  Lemma cont_ext_near e f g : 0 < e -> (forall y d, Rabs (y - t) < e -> f y d = g y d) -> cont f -> cont g.
  Proof.
    intros He E F eta H. destruct (F eta H) as [r [Hr C]]. exists (Rmin r e). assert (L := Rmin_l r e). assert (L' := Rmin_r r e).
    split; [apply Rmin_pos; assumption|]. intros y d Hy Hd. rewrite <- !E by (try lra; apply at_point, He).
    apply C; [lra|apply (near_weaken (Rmin r e)); assumption].
  Qed.
  Lemma cont_ext f g : (forall y d, f y d = g y d) -> cont f -> cont g.
  Proof. intros E. apply (cont_ext_near 1); [lra|]. intros; apply E. Qed.
  Lemma cont_plus f g : cont f -> cont g -> cont (fun y d => f y d + g y d).
  Proof.
    intros F G eta H. destruct (F (eta / 2) ltac:(lra)) as [r [Hr C]]. destruct (G (eta / 2) ltac:(lra)) as [r' [Hr' C']].
    exists (Rmin r r'). assert (L := Rmin_l r r'). assert (L' := Rmin_r r r'). split; [apply Rmin_pos; assumption|]. intros y d Hy Hd.
    specialize (C y d ltac:(lra) (near_weaken _ _ _ L Hd)). specialize (C' y d ltac:(lra) (near_weaken _ _ _ L' Hd)).
    replace (f y d + g y d - (f t d0 + g t d0)) with ((f y d - f t d0) + (g y d - g t d0)) by ring.
    eapply Rle_lt_trans; [apply Rabs_triang|lra].
  Qed.
  Lemma cont_scal c f : cont f -> cont (fun y d => c * f y d).
  Proof. intro F. apply (cont_comp (fun x => c * x)); [|exact F]. apply derivable_continuous_pt. exists (c * 1). apply (derivable_pt_lim_scal id), derivable_pt_lim_id. Qed.
  Lemma cont_opp f : cont f -> cont (fun y d => - f y d).
  Proof. intro F. apply (cont_ext (fun y d => -1 * f y d)); [intros; ring|]. apply cont_scal, F. Qed.
  Lemma cont_minus f g : cont f -> cont g -> cont (fun y d => f y d - g y d).
  Proof. intros F G. apply (cont_plus f (fun y d => - g y d)); [exact F|apply cont_opp, G]. Qed.
  Lemma cont_square f : cont f -> cont (fun y d => f y d * f y d).
  Proof.
    intro F. apply (cont_comp (fun x => x * x)); [|exact F]. apply derivable_continuous_pt. eexists. apply (derivable_pt_lim_mult id id); apply derivable_pt_lim_id.
  Qed.
  Lemma cont_mult f g : cont f -> cont g -> cont (fun y d => f y d * g y d).
  Proof.
    intros F G. apply (cont_ext (fun y d => / 4 * ((f y d + g y d) * (f y d + g y d) - (f y d - g y d) * (f y d - g y d)))); [intros; field|].
    apply cont_scal, cont_minus; [apply (cont_square (fun y d => f y d + g y d)), cont_plus|apply (cont_square (fun y d => f y d - g y d)), cont_minus]; assumption.
  Qed.
  Lemma cont_inv f : f t d0 <> 0 -> cont f -> cont (fun y d => / f y d).
  Proof.
    intros N F. apply (cont_comp Rinv); [|exact F]. apply (continuity_pt_inv id); [|exact N]. apply derivable_continuous_pt, derivable_pt_id.
  Qed.
  Lemma cont_div f g : g t d0 <> 0 -> cont f -> cont g -> cont (fun y d => f y d / g y d).
  Proof. intros N F G. apply (cont_mult f (fun y d => / g y d)); [exact F|apply cont_inv; assumption]. Qed.
  Lemma cont_exp f : cont f -> cont (fun y d => exp (f y d)).
  Proof. apply (cont_comp exp). apply derivable_continuous_pt, derivable_pt_exp. Qed.
  Lemma cont_ln f : 0 < f t d0 -> cont f -> cont (fun y d => ln (f y d)).
  Proof. intro P. apply (cont_comp ln). apply derivable_continuous_pt. eexists. apply derivable_pt_lim_ln, P. Qed.
  Lemma cont_Rpower f g : 0 < f t d0 -> cont f -> cont g -> cont (fun y d => Rpower (f y d) (g y d)).
  Proof. intros P F G. unfold Rpower. apply cont_exp, cont_mult; [exact G|apply cont_ln; assumption]. Qed.
  Lemma cont_sumn n (f : nat -> R -> (nat -> R) -> R) : (forall k, (k < n)%nat -> cont (f k)) -> cont (fun y d => sumn n (fun k => f k y d)).
  Proof. induction n as [|n IH]; intro H; [exact (cont_const 0)|]. cbn. apply cont_plus; [apply IH; intros; apply H; lia|apply H; lia]. Qed.
End Cont.

(** Choice probabilities of markets whose nesting parameters and agent-specific utilities depend on a parameter. *)
Section Family.
  Variables (m : market) (r : nat -> R -> R) (mu : R -> nat -> nat -> R) (I : nat) (w : nat -> R) (t e : R) (d0 : nat -> R).
  Let my (y : R) : market := with_rho m (fun h => r h y).
  Hypothesis He : 0 < e.
  Hypothesis V : forall y, Rabs (y - t) < e -> valid_market (my y).
  Hypothesis Pos : forall y, Rabs (y - t) < e -> mH m <> O -> forall h, (h < mH m)%nat -> 0 <= r h y.
  Hypothesis HI : (forall i, (i < I)%nat -> 0 <= w i) /\ exists i, (i < I)%nat /\ 0 < w i.
  Hypothesis Rc : forall h, (h < mH m)%nat -> continuity_pt (r h) t.
  Hypothesis Muc : forall i k, (k < mJ m)%nat -> continuity_pt (fun y => mu y i k) t.
  Let J := mJ m.
  Let cnt := cont J t d0.

  Definition family_shares (y : R) (d : nat -> R) (j : nat) : R := sumn I (fun i => probs (my y) d (mu y) i j * w i).
  Definition family_jacobian (y : R) (d : nat -> R) : nat -> nat -> R :=
    shares_by_xi_jacobian (my y) I w (family_shares y d) (probs (my y) d (mu y)) (conds (my y) d (mu y)).

  Let tt : Rabs (t - t) < e.
  Proof. unfold Rminus. rewrite Rplus_opp_r, Rabs_R0. exact He. Qed.
  Let gr h y := if Nat.eqb (mH m) 0 then 0 else r h y.

  Lemma cont_r h : (h < mH m)%nat -> cnt (fun y _ => r h y).
  Proof. intro Hh. apply cont_parameter, Rc, Hh. Qed.
  Lemma cont_gr h : (h < grpn m)%nat -> cnt (fun y _ => gr h y).
  Proof.
    intro Hh. unfold gr, grpn in *. destruct (Nat.eqb_spec (mH m) 0); [apply cont_const|apply cont_r, Hh].
  Qed.
  Lemma gr_lt h : (h < grpn m)%nat -> gr h t < 1.
  Proof. exact (grhox_lt (my t) h (V t tt)). Qed.

  Lemma cont_utility i k : (k < J)%nat -> cnt (fun y d => utility (my y) d (mu y i) k).
  Proof.
    intro Hk. unfold utility. cbn [my with_rho eps_scale].
    apply (cont_ext J t d0 (fun y d => / eps_scale m * (d k + mu y i k))); [intros; unfold Rdiv; cbn; ring|].
    apply cont_scal, cont_plus; [apply cont_coordinate, Hk|apply cont_parameter, Muc, Hk].
  Qed.

  Let u i y d k := utility (my y) d (mu y i) k.
  Let gi := gidx m.

  Lemma cont_inclusive i h : (h < grpn m)%nat -> cnt (fun y d => inclusive J gi (fun h => gr h y) all_goods (u i y d) h).
  Proof.
    intro Hh. unfold inclusive. apply (cont_sumn J t d0 J (fun k y d => if all_goods k && Nat.eqb (gi k) h then exp (u i y d k / (1 - gr h y)) else 0)).
    intros k Hk. destruct (all_goods k && Nat.eqb (gi k) h); [|apply cont_const].
    apply cont_exp, cont_div; [assert (L := gr_lt h Hh); lra|apply cont_utility, Hk|].
    apply cont_minus; [apply cont_const|apply cont_gr, Hh].
  Qed.

  Lemma cont_weight i h : (h < grpn m)%nat -> cnt (fun y d => group_weight J gi (fun h => gr h y) all_goods (u i y d) h).
  Proof.
    intro Hh. unfold group_weight. destruct (existsb _ _) eqn:Ex; [|apply cont_const].
    apply cont_Rpower; [apply inclusive_pos, Ex|apply cont_inclusive, Hh|]. apply cont_minus; [apply cont_const|apply cont_gr, Hh].
  Qed.

  Lemma in_group k : (k < J)%nat -> existsb (fun j => all_goods j && Nat.eqb (gi j) (gi k)) (seq 0 J) = true.
  Proof. intro Hk. apply existsb_exists. exists k. split; [apply in_seq; lia|]. cbn. apply Nat.eqb_refl. Qed.

  Lemma cont_within i k : (k < J)%nat -> cnt (fun y d => within_group J gi (fun h => gr h y) all_goods (u i y d) k).
  Proof.
    intro Hk. assert (G := gidx_lt (my t) k (V t tt) Hk). change (gi k < grpn m)%nat in G. unfold within_group. cbn [all_goods].
    apply cont_div; [apply Rgt_not_eq, inclusive_pos, in_group, Hk| |apply cont_inclusive, G].
    apply cont_exp, cont_div; [assert (L := gr_lt _ G); lra|apply cont_utility, Hk|].
    apply cont_minus; [apply cont_const|apply cont_gr, G].
  Qed.

  Lemma cont_probs i k : (k < J)%nat -> cnt (fun y d => probs (my y) d (mu y) i k).
  Proof.
    intro Hk. assert (G := gidx_lt (my t) k (V t tt) Hk). change (gi k < grpn m)%nat in G.
    apply (cont_ext_near J t d0 e (fun y d => nested J (grpn m) gi (fun h => gr h y) all_goods true (u i y d) k)); [exact He| |].
    { intros y d Hy. unfold probs. rewrite full_choice_with, probabilities_nested, included_all by (try exact (V y Hy); exact Hk). reflexivity. }
    unfold nested. apply cont_mult; [apply cont_within, Hk|]. unfold group_share.
    apply cont_div.
    - assert (N : 0 <= sumn (grpn m) (group_weight J gi (fun h => gr h t) all_goods (u i t d0))) by (apply sumn_nonneg; intros; apply group_weight_nonneg).
      cbn [indR]. lra.
    - apply cont_weight, G.
    - apply cont_plus; [apply cont_const|]. apply (cont_sumn J t d0 (grpn m) (fun h y d => group_weight J gi (fun h => gr h y) all_goods (u i y d) h)).
      intros h Hh. apply cont_weight, Hh.
  Qed.

  Lemma cont_conds i k : (k < J)%nat -> cnt (fun y d => conds (my y) d (mu y) i k).
  Proof.
    intro Hk. destruct (Nat.eq_dec (mH m) 0) as [HH|HH].
    - apply (cont_ext_near J t d0 e (fun _ _ => 0)); [exact He| |apply cont_const]. intros y d Hy. rewrite conds_cond.
      symmetry. apply cond_plain; [exact (V y Hy)|exact HH].
    - apply (cont_ext_near J t d0 e (fun y d => within_group J gi (fun h => gr h y) all_goods (u i y d) k)); [exact He| |apply cont_within, Hk].
      intros y d Hy. rewrite conds_cond, (cond_spec (my y)) by (try exact (V y Hy); assumption).
      unfold gi, gr, gidx. cbn [my with_rho mH gid grho]. destruct (Nat.eqb_spec (mH m) 0); [contradiction|reflexivity].
  Qed.

  Lemma cont_rho k : (k < J)%nat -> mH m <> O -> cnt (fun y _ => rho (my y) k) /\ rho (my t) k < 1.
  Proof.
    intros Hk HH. split; [|exact (rho_lt _ _ (V t tt) HH Hk)].
    apply (cont_r (gid m k)). exact (vm_gid _ (V t tt) HH k Hk).
  Qed.

  Lemma cont_shares k : (k < J)%nat -> cnt (fun y d => family_shares y d k).
  Proof.
    intro Hk. apply (cont_sumn J t d0 I (fun i y d => probs (my y) d (mu y) i k * w i)). intros i Hi.
    apply cont_mult; [apply cont_probs, Hk|apply cont_const].
  Qed.

  Lemma cont_jacobian j k : (j < J)%nat -> (k < J)%nat -> cnt (fun y d => family_jacobian y d j k).
  Proof.
    intros Hj Hk.
    assert (C1 : cnt (fun y d => if Nat.eqb j k then family_shares y d j else 0)) by (destruct (Nat.eqb j k); [apply cont_shares, Hj|apply cont_const]).
    assert (C2 : cnt (fun y d => sumn I (fun i => probs (my y) d (mu y) i j * (w i * probs (my y) d (mu y) i k)))).
    { apply (cont_sumn J t d0 I (fun i y d => probs (my y) d (mu y) i j * (w i * probs (my y) d (mu y) i k))). intros i Hi.
      apply cont_mult; [apply cont_probs, Hj|apply cont_scal, cont_probs, Hk]. }
    assert (C3 : cnt (fun y d => sumn I (fun i => conds (my y) d (mu y) i j * (w i * probs (my y) d (mu y) i k)))).
    { apply (cont_sumn J t d0 I (fun i y d => conds (my y) d (mu y) i j * (w i * probs (my y) d (mu y) i k))). intros i Hi.
      apply cont_mult; [apply cont_conds, Hj|apply cont_scal, cont_probs, Hk]. }
    unfold family_jacobian, shares_by_xi_jacobian. cbn [my with_rho eps_scale mH].
    assert (C4 : cnt (fun y d => if Req_EM_T (eps_scale m) 1 then (if Nat.eqb j k then family_shares y d j else 0) - sumn I (fun i => probs (my y) d (mu y) i j * (w i * probs (my y) d (mu y) i k))
      else ((if Nat.eqb j k then family_shares y d j else 0) - sumn I (fun i => probs (my y) d (mu y) i j * (w i * probs (my y) d (mu y) i k))) / eps_scale m)).
    { destruct (Req_EM_T (eps_scale m) 1); [apply cont_minus; assumption|].
      apply (cont_mult J t d0 (fun y d => (if Nat.eqb j k then family_shares y d j else 0) - sumn I (fun i => probs (my y) d (mu y) i j * (w i * probs (my y) d (mu y) i k))) (fun _ _ => / eps_scale m)); [apply cont_minus; assumption|apply cont_const]. }
    destruct (Nat.eqb_spec (mH m) 0) as [HH|HH]; [exact C4|].
    destruct (cont_rho j Hj HH) as [Cr Lr].
    apply cont_plus; [exact C4|]. apply cont_mult.
    - apply cont_div; [|exact Cr|apply cont_minus; [apply cont_const|exact Cr]]. lra.
    - apply cont_minus; [exact C1|]. exact (cont_scal J t d0 (membership m j k) _ C3).
  Qed.

  Lemma family_lines y d v x j : Rabs (y - t) < e -> (j < J)%nat ->
    derivable_pt_lim (fun x => family_shares y (fun k => d k + x * v k) j) x (sumn J (fun k => family_jacobian y (fun k => d k + x * v k) j k * v k)).
  Proof.
    intros Hy Hj. set (dx := fun k => d k + x * v k). assert (Vy := V y Hy).
    eapply dlim_eq; [|apply (dlim_sumn I (fun i x => probs (my y) (fun k => d k + x * v k) (mu y) i j * w i) x
      (fun i => prob_slope (my y) (probs (my y) dx (mu y) i) (conds (my y) dx (mu y) i) (fun k => v k / eps_scale (my y)) j * w i))].
    - (* slopes add up to the Jacobian *)
      assert (E : forall i, prob_slope (my y) (probs (my y) dx (mu y) i) (conds (my y) dx (mu y) i) (fun k => v k / eps_scale (my y)) j
        = sumn J (fun l => probabilities_by_xi (my y) (probs (my y) dx (mu y) i) (conds (my y) dx (mu y) i) l j * v l)).
      { intro i. assert (E2 := slope_by_xi (my y) true dx (mu y i) v j Vy Hj). cbv zeta in E2.
        assert (EC : cond_of (probabilities_linear (my y) full_choice true dx (mu y i)) = conds (my y) dx (mu y) i)
          by (apply functional_extensionality; intro; symmetry; apply conds_cond). rewrite EC in E2. exact E2. }
      rewrite (sumn_ext I _ (fun i => sumn J (fun l => probabilities_by_xi (my y) (probs (my y) dx (mu y) i) (conds (my y) dx (mu y) i) l j * w i * v l))).
      2:{ intros i Hi. rewrite E, <- sumn_scal_r. apply sumn_ext. intros; ring. }
      rewrite sumn_swap. apply sumn_ext. intros l Hl. rewrite sumn_scal_r. f_equal.
      unfold family_jacobian. rewrite (xi_jacobian_is_jacobian (my y) Vy); [|reflexivity|intros; exact Hj].
      symmetry. eapply dlim_unique; [apply (shares_by_delta (my y) I w (mu y) dx j l Vy Hj Hl)|].
      eapply dlim_eq; [|apply (dlim_sumn I (fun i z => probs (my y) (upd dx l z) (mu y) i j * w i) (dx l)
        (fun i => probabilities_by_xi (my y) (probs (my y) dx (mu y) i) (conds (my y) dx (mu y) i) l j * w i))].
      + reflexivity.
      + intros i Hi. apply dlim_scal_r.
        assert (D := prob_derive (my y) true (fun z => upd dx l z) (fun _ => mu y i) (dx l) (fun k => if Nat.eqb k l then 1 / eps_scale (my y) else 0) j Vy Hj
          (fun k Hk => delta_curve (my y) dx (mu y i) l k Vy)). cbv beta zeta in D.
        assert (Eu : upd dx l (dx l) = dx) by (apply functional_extensionality; intro; apply upd_same). rewrite Eu in D.
        eapply dlim_eq; [|exact D].
        assert (E2 := slope_by_xi (my y) true dx (mu y i) (fun k => if Nat.eqb k l then 1 else 0) j Vy Hj). cbv zeta in E2.
        assert (EC : cond_of (probabilities_linear (my y) full_choice true dx (mu y i)) = conds (my y) dx (mu y) i)
          by (apply functional_extensionality; intro; symmetry; apply conds_cond). rewrite EC in *.
        rewrite (prob_slope_v (my y) _ _ (fun k => if Nat.eqb k l then 1 / eps_scale (my y) else 0) (fun k => (if Nat.eqb k l then 1 else 0) / eps_scale (my y))).
        2:{ intro k. destruct (Nat.eqb k l); unfold Rdiv; ring. }
        rewrite E2. change (mJ (my y)) with J.
        rewrite (sumn_ext J _ (fun k => if Nat.eqb k l then probabilities_by_xi (my y) (probs (my y) dx (mu y) i) (conds (my y) dx (mu y) i) k j else 0)).
        2:{ intros k Hk. destruct (Nat.eqb k l); [apply Rmult_1_r|apply Rmult_0_r]. }
        apply (sumn_delta J l (fun k => probabilities_by_xi (my y) (probs (my y) dx (mu y) i) (conds (my y) dx (mu y) i) k j) Hl).
    - intros i Hi. apply dlim_scal_r. unfold probs at 1.
      assert (D := prob_derive (my y) true (fun x => fun k => d k + x * v k) (fun _ => mu y i) x (fun k => v k / eps_scale (my y)) j Vy Hj). cbv beta zeta in D.
      eapply dlim_eq; [|apply D].
      + reflexivity.
      + intros k Hk. unfold utility. unfold Rdiv. apply (dlim_scal_r (/ eps_scale (my y)) (fun x => d k + x * v k + mu y i k)).
        eapply dlim_eq; [|apply dlim_plus; [apply dlim_plus; [apply dlim_const|apply (dlim_scal_r (v k)), dlim_id]|apply dlim_const]]. ring.
  Qed.

  Lemma family_dominant y d : Rabs (y - t) < e ->
    (forall j, (j < J)%nat -> 0 < sumn J (family_jacobian y d j)) /\
    (forall j k, (j < J)%nat -> (k < J)%nat -> j <> k -> family_jacobian y d j k <= 0).
  Proof.
    intro Hy. exact (xi_jacobian_dominant (my y) (mk_agents I w (mu y)) d (family_shares y d) (V y Hy) HI (Pos y Hy) (fun j Hj => eq_refl)).
  Qed.

  Lemma family_ext y d d' j : (forall k, (k < J)%nat -> d k = d' k) -> Rabs (y - t) < e -> (j < J)%nat -> family_shares y d j = family_shares y d' j.
  Proof.
    intros E Hy Hj. apply sumn_ext. intros i Hi. f_equal. unfold probs. apply probabilities_ext; [exact (V y Hy)|exact Hj|].
    intros k Hk. unfold utility. rewrite (E k Hk). reflexivity.
  Qed.

  (** Mean utilities with matched shares are differentiable. *)
  Theorem family_differentiable (delta : R -> nat -> R) (observed b x : nat -> R) :
    (forall k, (k < J)%nat -> delta t k = d0 k) ->
    (forall y j, Rabs (y - t) < e -> (j < J)%nat -> family_shares y (delta y) j = observed j) ->
    (forall j, (j < J)%nat -> derivable_pt_lim (fun y => family_shares y (delta t) j) t (b j)) ->
    solves J (family_jacobian t (delta t)) (fun j => - b j) x ->
    forall k, (k < J)%nat -> derivable_pt_lim (fun y => delta y k) t (x k).
  Proof.
    intros E0 Hm Hb Hx k Hk.
    set (F := fun y d j => if Rlt_dec (Rabs (y - t)) e then family_shares y d j else 0).
    assert (EF : forall y d j, Rabs (y - t) < e -> F y d j = family_shares y d j) by (intros y d j Hy; unfold F; destruct (Rlt_dec (Rabs (y - t)) e); [reflexivity|contradiction]).
    apply (delta_differentiable J F family_jacobian t e delta observed b x He); try assumption.
    - intros y d v z j Hy Hj. apply dlim_ext with (fun z => family_shares y (fun k => d k + z * v k) j); [intros; symmetry; apply EF, Hy|].
      apply family_lines; assumption.
    - intros y d d' j E Hj. unfold F. destruct (Rlt_dec (Rabs (y - t)) e); [apply family_ext; assumption|reflexivity].
    - intros y d j Hy Hj. apply (proj1 (family_dominant y d Hy) j Hj).
    - intros y d j l Hy Hj Hl N. apply (proj2 (family_dominant y d Hy)); auto.
    - intros j Hj. apply dlim_ext_near with (fun y => family_shares y (delta t) j) e; [exact He| |apply Hb, Hj]. intros y Hy. symmetry. apply EF, Hy.
    - intros y j Hy Hj. rewrite EF by exact Hy. apply Hm; assumption.
    - intros j l eta Hj Hl Heta. destruct (cont_jacobian j l Hj Hl eta Heta) as [r0 [Hr0 C]]. exists r0. split; [exact Hr0|]. intros y d Hy Hd.
      assert (E0' : forall y d d', (forall k, (k < J)%nat -> d k = d' k) -> Rabs (y - t) < e -> family_jacobian y d j l = family_jacobian y d' j l).
      { clear - V He Hj Hl tt. intros y d d' E Hy. unfold family_jacobian, shares_by_xi_jacobian.
        assert (EP : forall i k, (k < J)%nat -> probs (my y) d (mu y) i k = probs (my y) d' (mu y) i k).
        { intros i k Hk. unfold probs. apply probabilities_ext; [exact (V y Hy)|exact Hk|]. intros l' Hl'. unfold utility. rewrite (E l' Hl'). reflexivity. }
        assert (EC : forall i k, (k < J)%nat -> conds (my y) d (mu y) i k = conds (my y) d' (mu y) i k).
        { intros i k Hk. rewrite !conds_cond. apply cond_ext; [exact (V y Hy)|exact Hk|]. intros l' Hl'. unfold utility. rewrite (E l' Hl'). reflexivity. }
        rewrite (family_ext y d d' j E Hy Hj).
        rewrite (sumn_ext I (fun i => probs (my y) d (mu y) i j * (w i * probs (my y) d (mu y) i l)) (fun i => probs (my y) d' (mu y) i j * (w i * probs (my y) d' (mu y) i l)))
          by (intros; rewrite !EP by assumption; reflexivity).
        rewrite (sumn_ext I (fun i => conds (my y) d (mu y) i j * (w i * probs (my y) d (mu y) i l)) (fun i => conds (my y) d' (mu y) i j * (w i * probs (my y) d' (mu y) i l)))
          by (intros; rewrite EP, EC by assumption; reflexivity).
        reflexivity. }
      rewrite (E0' t (delta t) d0) by (try exact E0; exact tt). apply C; [exact Hy|]. intros k' Hk'. rewrite <- E0 by exact Hk'. apply Hd, Hk'.
  Qed.
End Family.
