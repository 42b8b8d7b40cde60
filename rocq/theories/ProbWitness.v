(** An economy and a population that meet the hypotheses of theorems about choice probabilities. *)
From Coq Require Import Reals Lra Lia ZArith List Bool Arith.
From Verif Require Import Base SupplyModel BasicsModel BasicsSpec BasicsProofs ProbModel ProbSpec ProbProofs.
Import ListNotations.
Local Open Scope R_scope.

(** An economy with three products, two of them in the same market, two nests with parameters of their own, a
    price and a constant with random coefficients, and four agents. *)
Definition witness_economy : economy :=
  mk_economy [5; 2; 5]%Z (stable_argsort [5; 2; 5]%Z) 2 (fun i => Nat.modulo i 2) 2
    (fun h => if Nat.eqb h 0 then 1 / 4 else 1 / 2) 1
    1 (fun _ => mk_column true (fun _ x => x) (fun _ _ => 1) (fun _ _ => 0)) (fun _ => -1)
    1 (fun _ => mk_column false (fun _ _ => 1) (fun _ _ => 0) (fun _ _ => 0)) (fun _ _ => 1)
    (fun i => 1 + INR i) (fun i => - INR i).
Definition witness_population : population :=
  mk_population [5; 2; 5; 5]%Z (stable_argsort [5; 2; 5; 5]%Z) (fun n => if Nat.eqb n 1 then 1 else / 3)
    (fun n _ _ => INR n) (Some (fun n j => negb (Nat.eqb n 0 && Nat.eqb j 1))).

Lemma witness_consistent : consistent witness_economy witness_population.
Proof.
  constructor; cbn [witness_economy witness_population e_ids e_order e_H e_nest e_rho_size e_rho e_eps e_X1 e_X2
    e_x2 p_ids p_order uses ev].
  - exact (stable_argsort_correct _).
  - exact (stable_argsort_correct _).
  - intros t. cbn [In]. tauto.
  - intros _ i _. apply Nat.mod_upper_bound. discriminate.
  - intros _. lia.
  - intros h _. unfold nest_rho. cbn [Nat.eqb]. destruct (Nat.eqb h 0); lra.
  - lra.
  - reflexivity.
  - discriminate.
  - reflexivity.
  - reflexivity.
Qed.
