(** A market to which theorems about implied markups apply. *)
From Coq Require Import Reals Lra Lia List Bool Arith.
From Verif Require Import Base DemandSpec DemandModel DemandProofs DemandShares DemandDeriv SupplyModel SupplySpec SupplyProofs
  DerivModel DerivProofs EndoModel EndoSpec EndoProofs MarkupSpec.
Import ListNotations.
Local Open Scope R_scope.

(** Two products with a third of the market each at prices of one. *)
Definition priced : full_market := market_on (flat_market 2 (fun _ => 1)) (fun _ => 1) (fun _ => 0).

Lemma priced_valid : valid_market (fm priced).
Proof. apply (flat_valid 2 (fun _ => 1)). lia. Qed.

Lemma priced_averse : price_averse priced (var0 priced).
Proof.
  destruct (flat_averse 2 (fun _ => 1) ltac:(intros; lra) (fun _ => 1)) as [A [B [C D]]].
  repeat split; assumption.
Qed.

Lemma priced_jacobian j k : (j < 2)%nat -> (k < 2)%nat ->
  shares_jacobian priced (var0 priced) j k = shares_jacobian (flat_market 2 (fun _ => 1)) (fun _ => 0) j k.
Proof.
  intros Hj Hk. unfold shares_jacobian. cbn [fm fI fw market_on priced].
  apply jacobian_of_ext. intros i l Hi Hl.
  assert (Ll : (l < 2)%nat) by (destruct Hl; subst; assumption).
  assert (EU : forall l, (l < 2)%nat ->
     utility (fm (flat_market 2 (fun _ => 1))) (update_delta priced (var0 priced)) (update_mu priced (var0 priced) i) l
     = utility (fm (flat_market 2 (fun _ => 1))) (update_delta (flat_market 2 (fun _ => 1)) (fun _ => 0))
         (update_mu (flat_market 2 (fun _ => 1)) (fun _ => 0) i) l).
  { intros q Hq. unfold utility. cbn [var0 priced market_on]. unfold priced. rewrite market_on_delta, market_on_mu.
    f_equal. f_equal. unfold update_delta. cbn. ring. }
  repeat split.
  - unfold probs. apply probabilities_ext; try assumption; apply priced_valid.
Qed.

(** Cramer's rule. *)
Definition determinant (A : nat -> nat -> R) : R := A 0%nat 0%nat * A 1%nat 1%nat - A 0%nat 1%nat * A 1%nat 0%nat.
Definition cramer : solver := fun A b =>
  if Req_EM_T (determinant A) 0 then (b, true)
  else (fun j => match j with
        | O => (b 0%nat * A 1%nat 1%nat - A 0%nat 1%nat * b 1%nat) / determinant A
        | _ => (A 0%nat 0%nat * b 1%nat - b 0%nat * A 1%nat 0%nat) / determinant A end, false).

Lemma cramer_exact : exact_solver 2 cramer.
Proof.
  intros A b. unfold cramer. destruct (Req_EM_T (determinant A) 0) as [|N]; [discriminate|]. intros _ [|[|j]] Hj; [| |lia];
    cbn [fst sumn]; unfold determinant in *; field; assumption.
Qed.

Lemma cramer_fine c observed : 0 <= c <= 1 ->
  snd (compute_costs cramer priced (fun j k => if Nat.eqb j k then 1 else c) observed) = false.
Proof.
  intros Hc. unfold compute_costs, compute_eta, cramer.
  destruct (Req_EM_T _ 0) as [E|]; [|reflexivity]. exfalso. unfold determinant in E.
  rewrite !capital_delta_jacobian, !priced_jacobian, !flat_jacobian in E by lia. cbn in E.
  assert (c * c <= 1) by nra. field_simplify in E. nra.
Qed.
