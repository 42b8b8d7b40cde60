(** What it means for data to be in another order, independently of what is computed from them. *)
From Coq Require Import Reals List Bool Arith.
From Verif Require Import Base FltModel DemandModel SupplyModel DerivModel GradModel.
Import ListNotations.
Local Open Scope R_scope.

(** [p] lists the numbers 0, ..., n - 1 in some order, and leaves alone other numbers, which are not those of rows. *)
Definition renumbers (n : nat) (p : nat -> nat) : Prop :=
  (forall j, (j < n)%nat -> (p j < n)%nat) /\
  (forall j k, (j < n)%nat -> (k < n)%nat -> p j = p k -> j = k) /\
  (forall j, (n <= j)%nat -> p j = j).

(** The same products, with product [p j] in row j. *)
Definition reorder_market (p : nat -> nat) (m : market) : market :=
  mk_market (mJ m) (mH m) (fun j => gid m (p j)) (rho_multi m) (grho m) (eps_scale m).
Definition reorder_agents (p : nat -> nat) (a : agents) : agents :=
  mk_agents (aI a) (aw a) (fun i j => amu a i (p j)).
Definition reorder_column (p : nat -> nat) (c : column) : column :=
  mk_column (uses c) (fun j => ev c (p j)) (fun j => dv1 c (p j)) (fun j => dv2 c (p j)).
Definition reorder_full (p : nat -> nat) (M : full_market) : full_market :=
  mk_full_market (reorder_market p (fm M)) (fI M) (fw M) (fK1 M) (fun k => reorder_column p (fX1 M k)) (fbeta M)
    (fK2 M) (fun k => reorder_column p (fX2 M k)) (fun k j i => fcoef M k (p j) i)
    (fun j => var0 M (p j)) (fun j => delta0 M (p j)) (fun j k => X2_0 M (p j) k).

(** The same restriction of choices: what is said of product [p j] is said of row j. *)
Definition reordered_choice (J : nat) (p : nat -> nat) (c c' : choice) : Prop :=
  c_eliminate_outside c' = c_eliminate_outside c /\
  c_availability c' = option_map (fun a j => a (p j)) (c_availability c) /\
  c_eliminate_ids c' = option_map (fun a j => a (p j)) (c_eliminate_ids c) /\
  match c_eliminate c', c_eliminate c with
  | None, None => True
  | Some k', Some k => (k' < J)%nat /\ p k' = k
  | _, _ => False
  end.

(** The same vector in another order. *)
Definition reorder_vector (p : nat -> nat) (x : fvec) : fvec :=
  map (fun j => nth (p j) x NaN) (seq 0 (length x)).

(** A norm that does not depend on the order of elements. *)
Definition order_free (J : nat) (norm : fvec -> flt) : Prop :=
  forall p x, length x = J -> renumbers J p -> norm (reorder_vector p x) = norm x.

(** A market of an economy, with product [p j] in row j. *)
Definition reorder_tastes (p : nat -> nat) (t : tastes) : tastes :=
  mk_tastes (r_K2 t) (r_D t) (r_types t) (r_nodes t) (fun i d j => r_dem t i d (p j)) (fun j k => r_X2 t (p j) k).
Definition reorder_economy_market (p : nat -> nat) (e : economy_market) : economy_market :=
  mk_economy_market (reorder_full p (e_market e)) (reorder_tastes p (e_tastes e)) (e_group e)
    (fun j k => e_X1 e (p j) k) (fun j k => e_X3 e (p j) k) (fun j => e_shares e (p j))
    (fun j k => e_ownership e (p j) (p k)).

(** Demand rows and then supply rows, with row [r n] of product data in place of row n. *)
Definition stacked_rows (N : nat) (r : nat -> nat) (n : nat) : nat :=
  if Nat.ltb n N then r n else (N + r (n - N))%nat.

(** Product data with row [r n] in place of row n, so that product [p s j] is the j-th of market s. *)
Definition reordered_rows (r : nat -> nat) (p : nat -> nat -> nat) (ec ec' : economy) : Prop :=
  let J s := mJ (fm (e_market (ec_market ec s))) in
  renumbers (ec_N ec) r /\ (forall s, renumbers (J s) (p s)) /\
  (forall n, (n < ec_N ec)%nat -> let (s, j) := ec_row ec' n in
     (s < ec_T ec)%nat /\ (j < J s)%nat /\ ec_row ec (r n) = (s, p s j)) /\
  (forall s, ec_market ec' s = reorder_economy_market (p s) (ec_market ec s)) /\
  ec_T ec' = ec_T ec /\ ec_N ec' = ec_N ec /\ ec_supply ec' = ec_supply ec /\ ec_costs_log ec' = ec_costs_log ec /\
  ec_K1 ec' = ec_K1 ec /\ ec_eliminated_beta ec' = ec_eliminated_beta ec /\
  ec_K3 ec' = ec_K3 ec /\ ec_eliminated_gamma ec' = ec_eliminated_gamma ec /\
  ec_MI ec' = ec_MI ec /\ ec_K ec' = ec_K ec /\ ec_W ec' = ec_W ec /\ ec_A ec' = ec_A ec /\ ec_scale ec' = ec_scale ec /\
  (forall n k, ec_X ec' n k = ec_X ec (stacked_rows (ec_N ec) r n) k) /\
  (forall n k, ec_Z ec' n k = ec_Z ec (stacked_rows (ec_N ec) r n) k) /\
  (forall n m, ec_absorb ec' n m = ec_absorb ec (stacked_rows (ec_N ec) r n) (stacked_rows (ec_N ec) r m)).

(** Agents with the same distribution of what differs between them: all averages are the same. *)
Definition same_distribution {A : Type} (I : nat) (w : nat -> R) (x : nat -> A) (I' : nat) (w' : nat -> R) (x' : nat -> A) : Prop :=
  forall f : A -> R, sumn I (fun i => w i * f (x i)) = sumn I' (fun i => w' i * f (x' i)).

(** The same market with other agents. *)
Definition with_agents (M : full_market) (I : nat) (w : nat -> R) (coef : nat -> nat -> nat -> R) : full_market :=
  mk_full_market (fm M) I w (fK1 M) (fX1 M) (fbeta M) (fK2 M) (fX2 M) coef (var0 M) (delta0 M) (X2_0 M).
(** All random coefficients of one agent. *)
Definition agent_coefficients (M : full_market) (i : nat) : nat -> nat -> R := fun k j => fcoef M k j i.
