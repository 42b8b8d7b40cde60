(** Lemmas about DemandModel. *)
From Coq Require Import Reals Lra Lia List Bool Arith String.
From Verif Require Import Base DemandModel DemandSpec.
Import ListNotations.
Local Open Scope R_scope.

(** Conditions that Market.__init__ and Economy.__init__ guarantee (economy.py 149-153,
    market.py 146-158), together with nesting parameters below one. *)
Record valid_market (m : market) : Prop := {
  vm_J : (0 < mJ m)%nat;
  vm_gid : mH m <> O -> forall j, (j < mJ m)%nat -> (gid m j < mH m)%nat;
  vm_rho : mH m <> O -> forall h, (h < mH m)%nat -> grho m h < 1;
  vm_single : rho_multi m = false ->
              forall a b, (a < mH m)%nat -> (b < mH m)%nat -> grho m a = grho m b;
  vm_eps : 0 < eps_scale m;
  vm_eps_nest : mH m <> O -> eps_scale m = 1
}.

Lemma Rdiv_scale a b k : k <> 0 -> (a * k) / (b * k) = a / b.
Proof.
  intros Hk. unfold Rdiv. rewrite Rinv_mult.
  replace (a * k * (/ b * / k)) with (a * / b * (k * / k)) by ring.
  rewrite Rinv_r by assumption. ring.
Qed.

Lemma exp_neq_0 x : exp x <> 0.
Proof. apply Rgt_not_eq, exp_pos. Qed.

Lemma restrict_scale c e k j : restrict_choice c (fun i => e i * k) j = restrict_choice c e j * k.
Proof.
  unfold restrict_choice.
  destruct (c_availability c) as [av|], (c_eliminate c) as [el|], (c_eliminate_ids c) as [ms|];
    try destruct (ms j); try destruct (Nat.eqb j el); ring.
Qed.

Lemma restrict_ext c e e' j : e j = e' j -> restrict_choice c e j = restrict_choice c e' j.
Proof.
  intros E. unfold restrict_choice.
  destruct (c_availability c) as [av|], (c_eliminate c) as [el|], (c_eliminate_ids c) as [ms|];
    try destruct (ms j); try destruct (Nat.eqb j el); rewrite ?E; reflexivity.
Qed.

Lemma gsum_scale m x k h : gsum m (fun j => x j * k) h = gsum m x h * k.
Proof.
  unfold gsum. rewrite <- sumn_scal_r. apply sumn_ext; intros j _.
  destruct (Nat.eqb (gid m j) h); ring.
Qed.

Lemma gsum_ext m x y h : (forall j, (j < mJ m)%nat -> x j = y j) -> gsum m x h = gsum m y h.
Proof.
  intros E. unfold gsum. apply sumn_ext; intros j Hj. rewrite (E j Hj). reflexivity.
Qed.

Lemma exp_log_mult_scale x a r : exp_log_mult (x * exp (- r)) a = exp_log_mult x a * exp (- r * a).
Proof.
  unfold exp_log_mult. assert (He := exp_pos (- r)).
  destruct (Rlt_dec 0 x) as [Hx|Hx].
  - destruct (Rlt_dec 0 (x * exp (- r))) as [Hy|Hy].
    + rewrite ln_mult by assumption. rewrite ln_exp, Rmult_plus_distr_r, exp_plus. reflexivity.
    + exfalso; apply Hy. apply Rmult_lt_0_compat; assumption.
  - destruct (Rlt_dec 0 (x * exp (- r))) as [Hy|Hy]; [|ring].
    exfalso. apply Hx. apply Rmult_lt_reg_r with (exp (- r)); [assumption|]. rewrite Rmult_0_l; assumption.
Qed.

Lemma div_or_zero_scale x y k : k <> 0 -> div_or_zero (x * k) (y * k) = div_or_zero x y.
Proof.
  intros Hk. unfold div_or_zero.
  destruct (Req_EM_T y 0) as [Hy|Hy], (Req_EM_T (y * k) 0) as [Hyk|Hyk].
  - reflexivity.
  - exfalso; apply Hyk; rewrite Hy; ring.
  - exfalso. apply Rmult_integral in Hyk. tauto.
  - apply Rdiv_scale; assumption.
Qed.

(** Rescaling: subtracting any constant r from scaled utilities changes nothing. *)
Lemma finish_rescale m c r e :
  valid_market m ->
  (forall j, (j < mJ m)%nat ->
     fst (finish_probabilities m c (Some r) None (fun j => e j * exp (- r))) j =
     fst (finish_probabilities m c None None e) j) /\
  match snd (finish_probabilities m c (Some r) None (fun j => e j * exp (- r))),
        snd (finish_probabilities m c None None e) with
  | Some x, Some y => forall j, (j < mJ m)%nat -> x j = y j
  | None, None => True
  | _, _ => False
  end.
Proof.
  intros V. unfold finish_probabilities.
  destruct (Nat.eqb (mH m) 0) eqn:EH; cbn [fst snd].
  - split; [|exact I]. intros j Hj.
    rewrite restrict_scale.
    assert (E1 : sumn (mJ m) (restrict_choice c (fun j0 => e j0 * exp (- r)))
                 = sumn (mJ m) (restrict_choice c e) * exp (- r)).
    { rewrite <- sumn_scal_r. apply sumn_ext; intros; apply restrict_scale. }
    rewrite E1.
    assert (E2 : scale m c (Some r) 0 = scale m c None 0 * exp (- r)).
    { unfold scale. destruct (c_eliminate_outside c); [ring|]. rewrite EH. ring. }
    rewrite E2, <- Rmult_plus_distr_r. apply Rdiv_scale, exp_neq_0.
  - apply Nat.eqb_neq in EH.
    assert (EI : forall h, gsum m (restrict_choice c (fun j => e j * exp (- r))) h
                      = gsum m (restrict_choice c e) h * exp (- r)).
    { intros h. rewrite <- gsum_scale. apply gsum_ext; intros; apply restrict_scale. }
    assert (EC : forall j,
      div_or_zero (restrict_choice c (fun j0 => e j0 * exp (- r)) j)
                  (gsum m (restrict_choice c (fun j0 => e j0 * exp (- r))) (gid m j)) =
      div_or_zero (restrict_choice c e j) (gsum m (restrict_choice c e) (gid m j))).
    { intros j. rewrite restrict_scale, EI. apply div_or_zero_scale, exp_neq_0. }
    split; [|intros; apply EC].
    intros j Hj. rewrite EC. f_equal.
    set (h := gid m j). assert (Hh : (h < mH m)%nat) by (apply (vm_gid _ V); assumption).
    rewrite EI, exp_log_mult_scale.
    assert (E2 : scale m c (Some r) h = scale m c None h * exp (- r * (1 - grho m h))).
    { unfold scale. destruct (c_eliminate_outside c); [ring|].
      destruct (Nat.eqb_spec (mH m) 0); [contradiction|ring]. }
    rewrite E2.
    assert (E3 : sumn (mH m) (fun b => scale_weights m (Some r) h b *
                   exp_log_mult (gsum m (restrict_choice c (fun j0 => e j0 * exp (- r))) b) (1 - grho m b))
               = sumn (mH m) (fun b => scale_weights m None h b *
                   exp_log_mult (gsum m (restrict_choice c e) b) (1 - grho m b)) * exp (- r * (1 - grho m h))).
    { rewrite <- sumn_scal_r. apply sumn_ext; intros b Hb.
      rewrite EI, exp_log_mult_scale. unfold scale_weights.
      destruct (Nat.eqb_spec (mH m) 0); [contradiction|].
      destruct (rho_multi m) eqn:EM.
      - set (w := exp_log_mult _ _).
        replace (exp (- r * (grho m b - grho m h)) * (w * exp (- r * (1 - grho m b))))
          with (w * (exp (- r * (grho m b - grho m h)) * exp (- r * (1 - grho m b)))) by ring.
        rewrite <- exp_plus.
        replace (- r * (grho m b - grho m h) + - r * (1 - grho m b)) with (- r * (1 - grho m h)) by ring.
        ring.
      - rewrite (vm_single _ V EM b h Hb Hh). ring. }
    rewrite E3, <- Rmult_plus_distr_r. apply Rdiv_scale, exp_neq_0.
Qed.

Lemma finish_ext m c red num e e' :
  (forall j, (j < mJ m)%nat -> e j = e' j) ->
  (forall j, (j < mJ m)%nat ->
     fst (finish_probabilities m c red num e) j = fst (finish_probabilities m c red num e') j) /\
  match snd (finish_probabilities m c red num e), snd (finish_probabilities m c red num e') with
  | Some x, Some y => forall j, (j < mJ m)%nat -> x j = y j
  | None, None => True
  | _, _ => False
  end.
Proof.
  intros E. unfold finish_probabilities.
  assert (ER : forall j, (j < mJ m)%nat -> restrict_choice c e j = restrict_choice c e' j)
    by (intros; apply restrict_ext; auto).
  destruct (Nat.eqb (mH m) 0); cbn [fst snd].
  - split; [|exact I]. intros j Hj. rewrite (sumn_ext _ _ _ ER).
    destruct num; [reflexivity|]. rewrite (ER j Hj); reflexivity.
  - assert (EI : forall h, gsum m (restrict_choice c e) h = gsum m (restrict_choice c e') h)
      by (intros; apply gsum_ext; assumption).
    split.
    + intros j Hj. rewrite (ER j Hj), !EI. f_equal. f_equal. f_equal.
      apply sumn_ext; intros b _. rewrite EI; reflexivity.
    + intros j Hj. rewrite (ER j Hj), EI; reflexivity.
Qed.

Lemma safe_is_exact m c delta mu :
  valid_market m ->
  (forall j, (j < mJ m)%nat ->
     fst (probabilities_linear m c true delta mu) j = fst (probabilities_linear m c false delta mu) j) /\
  match snd (probabilities_linear m c true delta mu), snd (probabilities_linear m c false delta mu) with
  | Some x, Some y => forall j, (j < mJ m)%nat -> x j = y j
  | None, None => True
  | _, _ => False
  end.
Proof.
  intros V. unfold probabilities_linear.
  set (u := scaled_utilities m delta mu). set (r := utility_reduction m u).
  destruct (finish_rescale m c r (fun j => exp (u j)) V) as [H1 H2].
  destruct (finish_ext m c (Some r) None (fun j => exp (u j - r)) (fun j => exp (u j) * exp (- r)))
    as [G1 G2].
  { intros j _. unfold Rminus. apply exp_plus. }
  split.
  - intros j Hj. rewrite (G1 j Hj). apply H1; assumption.
  - revert G2 H2.
    destruct (snd (finish_probabilities m c (Some r) None (fun j => exp (u j - r)))) as [x|],
             (snd (finish_probabilities m c (Some r) None (fun j => exp (u j) * exp (- r)))) as [y|],
             (snd (finish_probabilities m c None None (fun j => exp (u j)))) as [z|];
      try tauto.
    intros G2 H2 j Hj. rewrite (G2 j Hj). apply H2; assumption.
Qed.

(** Which products remain in the choice set when availability is an indicator. *)
Definition choice_with (out : bool) (avail : option (nat -> bool)) (el : option nat)
    (ids : option (nat -> bool)) : choice :=
  mk_choice (negb out) (option_map (fun b j => indR (b j)) avail) el ids.

Definition included (avail : option (nat -> bool)) (el : option nat)
    (ids : option (nat -> bool)) (j : nat) : bool :=
  match avail with Some b => b j | None => true end
  && match el with Some k => negb (Nat.eqb j k) | None => true end
  && match ids with Some mask => negb (mask j) | None => true end.

Lemma restrict_spec out avail el ids e j :
  restrict_choice (choice_with out avail el ids) e j =
  if included avail el ids j then e j else 0.
Proof.
  unfold restrict_choice, choice_with, included; cbn [c_availability c_eliminate c_eliminate_ids].
  destruct avail as [b|], el as [k|], ids as [ms|]; cbn [option_map];
    try destruct (b j); try destruct (Nat.eqb j k); try destruct (ms j); simpl; ring.
Qed.

Lemma existsb_seq_group (P : nat -> bool) J :
  existsb P (seq 0 J) = true <-> exists k, (k < J)%nat /\ P k = true.
Proof.
  rewrite existsb_exists. split.
  - intros [k [Hk E]]. apply in_seq in Hk. exists k; split; [lia|assumption].
  - intros [k [Hk E]]. exists k; split; [apply in_seq; lia|assumption].
Qed.

Lemma inclusive_pos J grp r inc V h :
  existsb (fun k => inc k && Nat.eqb (grp k) h) (seq 0 J) = true ->
  0 < inclusive J grp r inc V h.
Proof.
  intros E. apply existsb_seq_group in E. destruct E as [k [Hk E]].
  unfold inclusive. apply sumn_pos.
  - intros i _. destruct (inc i && Nat.eqb (grp i) h); [left; apply exp_pos | lra].
  - exists k; split; [assumption|]. rewrite E. apply exp_pos.
Qed.

Lemma inclusive_zero J grp r inc V h :
  existsb (fun k => inc k && Nat.eqb (grp k) h) (seq 0 J) = false ->
  inclusive J grp r inc V h = 0.
Proof.
  intros E. unfold inclusive. transitivity (sumn J (fun _ => 0)); [|apply sumn_zero].
  apply sumn_ext. intros k Hk.
  destruct (inc k && Nat.eqb (grp k) h) eqn:Ek; [|reflexivity].
  assert (existsb (fun k => inc k && Nat.eqb (grp k) h) (seq 0 J) = true).
  { apply existsb_seq_group; exists k; split; assumption. }
  congruence.
Qed.

Lemma group_weight_nonneg J grp r inc V h : 0 <= group_weight J grp r inc V h.
Proof.
  unfold group_weight. destruct (existsb _ _); [|lra].
  unfold Rpower. left; apply exp_pos.
Qed.

Lemma exp_log_mult_weight J grp r inc V h :
  exp_log_mult (inclusive J grp r inc V h) (1 - r h) = group_weight J grp r inc V h.
Proof.
  unfold group_weight, exp_log_mult.
  destruct (existsb (fun k => inc k && Nat.eqb (grp k) h) (seq 0 J)) eqn:E.
  - destruct (Rlt_dec 0 (inclusive J grp r inc V h)) as [_|Hn].
    + unfold Rpower. f_equal. ring.
    + exfalso; apply Hn. apply inclusive_pos; assumption.
  - rewrite (inclusive_zero _ _ _ _ _ _ E).
    destruct (Rlt_dec 0 0); [lra|reflexivity].
Qed.

Lemma existsb_intro (P : nat -> bool) J k : (k < J)%nat -> P k = true -> existsb P (seq 0 J) = true.
Proof. intros; apply existsb_seq_group; exists k; split; assumption. Qed.

Lemma finish_nest_spec m out avail el ids V :
  mH m <> O ->
  let inc := included avail el ids in
  let e := fun j => exp (V j / (1 - rho m j)) in
  (forall j, (j < mJ m)%nat ->
    fst (finish_probabilities m (choice_with out avail el ids) None None e) j =
    nested (mJ m) (mH m) (gid m) (grho m) inc out V j) /\
  (exists con,
    snd (finish_probabilities m (choice_with out avail el ids) None None e) = Some con /\
    forall j, (j < mJ m)%nat -> con j = within_group (mJ m) (gid m) (grho m) inc V j).
Proof.
  intros HH inc e.
  assert (EI : forall h, gsum m (restrict_choice (choice_with out avail el ids) e) h =
                    inclusive (mJ m) (gid m) (grho m) inc V h).
  { intros h. unfold gsum, inclusive. apply sumn_ext; intros j _.
    rewrite restrict_spec. fold inc. unfold e, rho.
    destruct (Nat.eqb_spec (gid m j) h) as [->|]; destruct (inc j); reflexivity. }
  assert (EW : forall h, exp_log_mult (gsum m (restrict_choice (choice_with out avail el ids) e) h) (1 - grho m h)
                   = group_weight (mJ m) (gid m) (grho m) inc V h)
    by (intros; rewrite EI; apply exp_log_mult_weight).
  assert (EC : forall j, (j < mJ m)%nat ->
     div_or_zero (restrict_choice (choice_with out avail el ids) e j)
       (gsum m (restrict_choice (choice_with out avail el ids) e) (gid m j))
     = within_group (mJ m) (gid m) (grho m) inc V j).
  { intros j Hj. rewrite EI, restrict_spec. fold inc. unfold within_group, div_or_zero.
    destruct (inc j) eqn:Ej.
    - destruct (Req_EM_T (inclusive (mJ m) (gid m) (grho m) inc V (gid m j)) 0) as [Hz|Hz]; [|reflexivity].
      exfalso. assert (0 < inclusive (mJ m) (gid m) (grho m) inc V (gid m j)); [|lra].
      apply inclusive_pos. apply existsb_intro with j; [assumption|]. rewrite Ej, Nat.eqb_refl; reflexivity.
    - destruct (Req_EM_T _ 0); [reflexivity|]. unfold Rdiv; ring. }
  unfold finish_probabilities.
  destruct (Nat.eqb_spec (mH m) 0) as [|_]; [contradiction|]. cbn [fst snd].
  split.
  - intros j Hj. rewrite (EC j Hj). unfold nested. f_equal. unfold group_share.
    rewrite EW. f_equal. f_equal.
    + unfold scale, choice_with; cbn [c_eliminate_outside]. destruct out; reflexivity.
    + apply sumn_ext; intros b _. rewrite EW. unfold scale_weights; ring.
  - eexists; split; [reflexivity|]. assumption.
Qed.

Lemma finish_plain_spec m out avail el ids V :
  mH m = O ->
  let inc := included avail el ids in
  let e := fun j => exp (V j) in
  (forall j, fst (finish_probabilities m (choice_with out avail el ids) None None e) j =
             logit (mJ m) inc out V j) /\
  snd (finish_probabilities m (choice_with out avail el ids) None None e) = None.
Proof.
  intros HH inc e. unfold finish_probabilities. rewrite HH; cbn [Nat.eqb fst snd].
  split; [|reflexivity].
  intros j. rewrite restrict_spec. fold inc. unfold logit.
  destruct (inc j); [|unfold Rdiv; ring].
  f_equal. f_equal.
  - unfold scale, choice_with; cbn [c_eliminate_outside]. destruct out; reflexivity.
  - apply sumn_ext; intros k _. rewrite restrict_spec; reflexivity.
Qed.

(** Utilities in units of the error term. *)
Definition utility (m : market) (delta mu : nat -> R) (j : nat) : R := (delta j + mu j) / eps_scale m.

Lemma scaled_utilities_plain m delta mu j :
  mH m = O -> scaled_utilities m delta mu j = utility m delta mu j.
Proof.
  intros HH. unfold scaled_utilities, utility. rewrite HH; cbn [Nat.eqb].
  destruct (Req_EM_T (eps_scale m) 1) as [->|]; [field|reflexivity].
Qed.

Lemma scaled_utilities_nest m delta mu j :
  valid_market m -> mH m <> O ->
  scaled_utilities m delta mu j = utility m delta mu j / (1 - rho m j).
Proof.
  intros V HH. unfold scaled_utilities, utility. rewrite (vm_eps_nest _ V HH).
  destruct (Nat.eqb_spec (mH m) 0); [contradiction|].
  destruct (Req_EM_T 1 1); [|lra]. unfold Rdiv. rewrite Rinv_1. ring.
Qed.

(** Everything that [compute_probabilities] returns, for every choice set and both code paths. *)
Lemma probabilities_spec m safe out avail el ids delta mu :
  valid_market m ->
  let inc := included avail el ids in
  let V := utility m delta mu in
  let p := probabilities_linear m (choice_with out avail el ids) safe delta mu in
  (mH m = O ->
     (forall j, (j < mJ m)%nat -> fst p j = logit (mJ m) inc out V j) /\ snd p = None) /\
  (mH m <> O ->
     (forall j, (j < mJ m)%nat -> fst p j = nested (mJ m) (mH m) (gid m) (grho m) inc out V j) /\
     exists con, snd p = Some con /\
       forall j, (j < mJ m)%nat -> con j = within_group (mJ m) (gid m) (grho m) inc V j).
Proof.
  intros V inc W p.
  assert (Hunsafe :
    let q := probabilities_linear m (choice_with out avail el ids) false delta mu in
  (mH m = O ->
     (forall j, (j < mJ m)%nat -> fst q j = logit (mJ m) inc out W j) /\ snd q = None) /\
  (mH m <> O ->
     (forall j, (j < mJ m)%nat -> fst q j = nested (mJ m) (mH m) (gid m) (grho m) inc out W j) /\
     exists con, snd q = Some con /\
       forall j, (j < mJ m)%nat -> con j = within_group (mJ m) (gid m) (grho m) inc W j)).
  { unfold probabilities_linear. cbv zeta. split; intros HH.
    - destruct (finish_ext m (choice_with out avail el ids) None None
                 (fun j => exp (scaled_utilities m delta mu j)) (fun j => exp (W j))) as [G1 G2].
      { intros j _. f_equal. apply scaled_utilities_plain; assumption. }
      destruct (finish_plain_spec m out avail el ids W HH) as [P1 P2].
      split.
      + intros j Hj. rewrite (G1 j Hj). apply P1.
      + rewrite P2 in G2. destruct (snd (finish_probabilities m (choice_with out avail el ids) None None
          (fun j => exp (scaled_utilities m delta mu j)))); [contradiction|reflexivity].
    - destruct (finish_ext m (choice_with out avail el ids) None None
                 (fun j => exp (scaled_utilities m delta mu j))
                 (fun j => exp (W j / (1 - rho m j)))) as [G1 G2].
      { intros j _. f_equal. apply scaled_utilities_nest; assumption. }
      destruct (finish_nest_spec m out avail el ids W HH) as [P1 [con [P2 P3]]].
      split.
      + intros j Hj. rewrite (G1 j Hj). apply P1; assumption.
      + rewrite P2 in G2.
        destruct (snd (finish_probabilities m (choice_with out avail el ids) None None
          (fun j => exp (scaled_utilities m delta mu j)))) as [x|]; [|contradiction].
        exists x; split; [reflexivity|]. intros j Hj. rewrite (G2 j Hj). apply P3; assumption. }
  destruct safe; [|exact Hunsafe].
  destruct (safe_is_exact m (choice_with out avail el ids) delta mu V) as [S1 S2].
  fold p in S1, S2. cbv zeta in Hunsafe. destruct Hunsafe as [U1 U2].
  split; intros HH.
  - destruct (U1 HH) as [A B]. split.
    + intros j Hj. rewrite (S1 j Hj). apply A; assumption.
    + rewrite B in S2. destruct (snd p); [contradiction|reflexivity].
  - destruct (U2 HH) as [A [con [B C]]]. split.
    + intros j Hj. rewrite (S1 j Hj). apply A; assumption.
    + rewrite B in S2. destruct (snd p) as [x|]; [|contradiction].
      exists x; split; [reflexivity|]. intros j Hj. rewrite (S2 j Hj). apply C; assumption.
Qed.
