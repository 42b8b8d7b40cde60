(** A market of two products to which the theorems about equilibrium prices apply. *)
From Coq Require Import Reals ZArith Lra Lia List Bool Arith.
From Verif Require Import Base FltModel IterModel DemandModel DemandSpec DemandProofs SupplyModel SupplySpec SupplyProofs
  PostModel EquilSpec EquilProofs EquilMarket.
Import ListNotations.
Local Open Scope R_scope.

Definition two_products : full_market := flat_market 2 (fun _ => 1).

Lemma two_products_plain : plain_logit two_products 1.
Proof.
  constructor.
  - apply flat_valid. lia.
  - reflexivity.
  - reflexivity.
  - cbn. lra.
  - exists (fun _ => 1). split; [|cbn; lra]. intros k j x y _ _ _. cbn. split; ring.
  - lra.
Qed.

Lemma two_products_merge : merger 2 [1; 2]%Z [1; 1]%Z.
Proof. intros [|[|j]] [|[|k]] Hj Hk E; try lia; reflexivity. Qed.

(** A solver of systems of two equations, for diagonal matrices. *)
Definition diagonal_solver : solver := fun A b =>
  if Req_EM_T (A 0%nat 1%nat) 0 then
    if Req_EM_T (A 1%nat 0%nat) 0 then
      if Req_EM_T (A 0%nat 0%nat) 0 then (b, true)
      else if Req_EM_T (A 1%nat 1%nat) 0 then (b, true) else (fun j => b j / A j j, false)
    else (b, true)
  else (b, true).

Lemma diagonal_solver_exact : exact_solver 2 diagonal_solver.
Proof.
  intros A b. unfold diagonal_solver.
  destruct (Req_EM_T (A 0%nat 1%nat) 0) as [E1|]; [|discriminate].
  destruct (Req_EM_T (A 1%nat 0%nat) 0) as [E2|]; [|discriminate].
  destruct (Req_EM_T (A 0%nat 0%nat) 0) as [|E3]; [discriminate|].
  destruct (Req_EM_T (A 1%nat 1%nat) 0) as [|E4]; [discriminate|]. intros _ [|[|j]] Hj; [| |lia]; cbn [fst sumn].
  - rewrite E1. field. split; assumption.
  - rewrite E2. field. split; assumption.
Qed.

Lemma two_products_costs :
  snd (compute_costs diagonal_solver two_products (firm_ownership [1; 2]%Z) (shares_at two_products (var0 two_products))) = false.
Proof.
  unfold compute_costs, compute_eta.
  assert (N : forall j, (j < 2)%nat -> capital_delta two_products (firm_ownership [1; 2]%Z) (var0 two_products) j j <> 0).
  { intros j Hj. rewrite capital_delta_jacobian. change (var0 two_products) with (fun _ : nat => 0).
    unfold two_products. rewrite flat_jacobian by lia. rewrite Nat.eqb_refl. unfold firm_ownership. rewrite Z.eqb_refl.
    cbn [INR]. lra. }
  assert (Z1 : capital_delta two_products (firm_ownership [1; 2]%Z) (var0 two_products) 0 1 = 0) by (unfold capital_delta; match goal with |- _ * firm_ownership ?l ?i ?j = _ => change (firm_ownership l i j) with 0 end; apply Rmult_0_r).
  assert (Z2 : capital_delta two_products (firm_ownership [1; 2]%Z) (var0 two_products) 1 0 = 0) by (unfold capital_delta; match goal with |- _ * firm_ownership ?l ?i ?j = _ => change (firm_ownership l i j) with 0 end; apply Rmult_0_r).
  assert (N0 := N 0%nat ltac:(lia)). assert (N1 := N 1%nat ltac:(lia)).
  unfold diagonal_solver. set (A := capital_delta _ _ _) in *.
  destruct (Req_EM_T (A 0%nat 1%nat) 0); [|contradiction]. destruct (Req_EM_T (A 1%nat 0%nat) 0); [|contradiction].
  destruct (Req_EM_T (A 0%nat 0%nat) 0); [contradiction|]. destruct (Req_EM_T (A 1%nat 1%nat) 0); [contradiction|]. reflexivity.
Qed.
