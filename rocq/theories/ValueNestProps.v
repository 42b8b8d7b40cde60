(** C169, continued: what products are worth if some products of nests are eliminated. *)
From Coq Require Import Reals Lra Lia List Bool Arith.
From Verif Require Import Base DemandModel DemandProofs SupplyModel SupplySpec SupplyProofs WelfareModel WelfareSpec WelfareProofs ValueSpec ValueProofs ValueProps ValueNestSpec ValueNests.
Local Open Scope R_scope.

(** With nests and any eliminated products, what they are worth is a function of choice probabilities and nesting parameters only: the probability of each nest is multiplied by the share of the nest
    that is left, to the power of one minus its parameter. *)
Theorem C169_exact M i a avail mask safe x :
  valid_market (fm M) -> (forall y, good_columns M y) -> eps_scale (fm M) = 1 -> no_income_effects (mJ (fm M)) (price_utility M i) a -> mH (fm M) <> O ->
  let p := fst (probabilities_linear (fm M) (choice_with true (avail i) None None) safe (update_delta M x) (update_mu M x i)) in let J := mJ (fm M) in
  let rest := 1 - sumn J p + sumn (mH (fm M)) (fun h => left_of_nest (in_nest J (gid (fm M)) h (fun _ => true) p) (in_nest J (gid (fm M)) h mask p) (grho (fm M) h)) in
  let av := fun i => option_map (fun (b : nat -> bool) j => indR (b j)) (avail i) in
  0 < rest /\ individual_surplus M av None x i - individual_surplus M av (Some mask) x i = - ln rest / a.
Proof. intros V G E N H. exact (value_nests M i a avail mask safe x V G E N H). Qed.
Print Assumptions C169_exact.

(** The market of [C169_applies] has nests; half of a nest with a probability of one half and a parameter of one half leaves more than a quarter, and all of it leaves nothing. *)
Example C169_exact_applies : mH (fm liked_products) <> O /\ / 4 < left_of_nest (/ 2) (/ 4) (/ 2) /\ left_of_nest (/ 2) (/ 2) (/ 2) = 0 /\ left_of_nest (/ 2) (/ 4) 0 = / 4.
Proof.
  split; [discriminate|]. unfold left_of_nest. split; [|split].
  - destruct (Rlt_dec (/ 4) (/ 2)); [|lra]. replace ((/ 2 - / 4) / / 2) with (/ 2) by field. replace (1 - / 2) with (/ 2) by field. unfold Rpower.
    assert (L : ln (/ 2) < 0) by (rewrite <- ln_1; apply ln_increasing; lra).
    assert (X : exp (ln (/ 2)) < exp (/ 2 * ln (/ 2))) by (apply exp_increasing; lra). rewrite exp_ln in X by lra. lra.
  - destruct (Rlt_dec (/ 2) (/ 2)); lra.
  - destruct (Rlt_dec (/ 4) (/ 2)); [|lra]. rewrite Rminus_0_r, Rpower_1 by lra. field.
Qed.
