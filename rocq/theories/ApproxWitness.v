(** Three products, of which two are sold by firms that merge. *)
From Coq Require Import Reals ZArith Lra Lia List Bool Arith.
From Verif Require Import Base FltModel IterModel DemandModel DemandSpec DemandProofs SupplyModel SupplySpec SupplyProofs
  PostModel EquilSpec EquilProofs EquilMarket ApproxSpec.
Import ListNotations.
Local Open Scope R_scope.

Definition three_products : full_market := flat_market 3 (fun _ => 1).
Lemma three_products_plain : plain_logit three_products 1.
Proof.
  constructor.
  - apply flat_valid. lia.
  - reflexivity.
  - reflexivity.
  - cbn. lra.
  - exists (fun _ => 1). split; [|cbn; lra]. intros k j x y _ _ _. cbn. split; ring.
  - lra.
Qed.
Lemma three_products_merge : merger 3 [1; 2; 3]%Z [1; 1; 3]%Z.
Proof. intros [|[|[|j]]] [|[|[|k]]] Hj Hk E; try lia; try reflexivity; discriminate E. Qed.
Lemma three_products_only : only_merger 3 [1; 2; 3]%Z [1; 1; 3]%Z 0.
Proof. intros [|[|[|k]]] [|[|[|l]]] Hk Hl N E; try lia; try reflexivity; try discriminate E; contradiction (N eq_refl). Qed.

(** A solver of systems in which the third equation is separate. *)
Definition block_solver : solver := fun A b =>
  let det := A 0%nat 0%nat * A 1%nat 1%nat - A 0%nat 1%nat * A 1%nat 0%nat in
  if Req_EM_T (A 0%nat 2%nat) 0 then
    if Req_EM_T (A 1%nat 2%nat) 0 then
      if Req_EM_T (A 2%nat 0%nat) 0 then
        if Req_EM_T (A 2%nat 1%nat) 0 then
          if Req_EM_T (A 2%nat 2%nat) 0 then (b, true) else
          if Req_EM_T det 0 then (b, true) else
            (fun j => if Nat.eqb j 0 then (A 1%nat 1%nat * b 0%nat - A 0%nat 1%nat * b 1%nat) / det
                      else if Nat.eqb j 1 then (A 0%nat 0%nat * b 1%nat - A 1%nat 0%nat * b 0%nat) / det else b 2%nat / A 2%nat 2%nat, false)
        else (b, true)
      else (b, true)
    else (b, true)
  else (b, true).
Lemma block_solver_exact : exact_solver 3 block_solver.
Proof.
  intros A b. unfold block_solver.
  destruct (Req_EM_T (A 0%nat 2%nat) 0) as [E1|]; [|discriminate].
  destruct (Req_EM_T (A 1%nat 2%nat) 0) as [E2|]; [|discriminate].
  destruct (Req_EM_T (A 2%nat 0%nat) 0) as [E3|]; [|discriminate].
  destruct (Req_EM_T (A 2%nat 1%nat) 0) as [E4|]; [|discriminate].
  destruct (Req_EM_T (A 2%nat 2%nat) 0) as [|E5]; [discriminate|].
  destruct (Req_EM_T _ 0) as [|N]; [discriminate|]. intros _ [|[|[|j]]] Hj; [| | |lia]; cbn [fst sumn Nat.eqb].
  - rewrite E1. field. split; assumption.
  - rewrite E2. field. split; assumption.
  - rewrite E3, E4. field. split; assumption.
Qed.
Lemma three_products_solved ids : nth 0 ids 0%Z <> nth 2 ids 0%Z -> nth 1 ids 0%Z <> nth 2 ids 0%Z ->
  snd (compute_costs block_solver three_products (firm_ownership ids) (shares_at three_products (var0 three_products))) = false.
Proof.
  intros N1 N2. unfold compute_costs, compute_eta.
  assert (D : forall j k, (j < 3)%nat -> (k < 3)%nat -> capital_delta three_products (firm_ownership ids) (var0 three_products) j k =
    (if Z.eqb (nth j ids 0%Z) (nth k ids 0%Z) then 1 else 0) * (if Nat.eqb k j then 3 / 16 else - (1 / 16))).
  { intros j k Hj Hk. rewrite capital_delta_jacobian. change (var0 three_products) with (fun _ : nat => 0).
    unfold three_products. rewrite flat_jacobian by assumption. unfold firm_ownership. replace (INR 3) with 3 by (cbn; ring).
    destruct (Nat.eqb k j), (Z.eqb (nth j ids 0%Z) (nth k ids 0%Z)); field. }
  unfold block_solver. set (A := capital_delta _ _ _) in *.
  rewrite !D by lia. cbn [Nat.eqb]. rewrite !Z.eqb_refl. rewrite (Z.eqb_sym (nth 2 ids 0%Z)), (Z.eqb_sym (nth 2 ids 0%Z) (nth 1 ids 0%Z)).
  rewrite (proj2 (Z.eqb_neq _ _) N1), (proj2 (Z.eqb_neq _ _) N2). rewrite (Z.eqb_sym (nth 1 ids 0%Z) (nth 0 ids 0%Z)).
  repeat match goal with |- context [Req_EM_T (0 * ?x) 0] => destruct (Req_EM_T (0 * x) 0) as [_|X]; [|exfalso; apply X; ring] end.
  destruct (Req_EM_T (1 * (3 / 16)) 0) as [X|_]; [exfalso; lra|].
  destruct (Z.eqb (nth 0 ids 0%Z) (nth 1 ids 0%Z)); destruct (Req_EM_T _ 0) as [X|_]; try reflexivity; exfalso; lra.
Qed.
Lemma three_products_approximated costs : snd (compute_approximate_prices block_solver three_products (firm_ownership [1; 2; 3]%Z) (firm_ownership [1; 1; 3]%Z)
  (shares_at three_products (var0 three_products)) costs) = false.
Proof.
  assert (X := three_products_solved [1; 2; 3]%Z ltac:(discriminate) ltac:(discriminate)). assert (Y := three_products_solved [1; 1; 3]%Z ltac:(discriminate) ltac:(discriminate)).
  unfold compute_approximate_prices, compute_costs in *.
  destruct (compute_eta block_solver three_products (firm_ownership [1; 2; 3]%Z) (shares_at three_products (var0 three_products))) as [e1 b1].
  destruct (compute_eta block_solver three_products (firm_ownership [1; 1; 3]%Z) (shares_at three_products (var0 three_products))) as [e2 b2].
  cbn [snd] in *. destruct costs; cbn [snd]; rewrite ?X, ?Y; reflexivity.
Qed.
