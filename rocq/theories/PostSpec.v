(** Vocabulary for arguments and results of post-estimation methods. *)
From Coq Require Import Reals ZArith List Bool Arith.
Import ListNotations.

(** Numbers of products in selected markets. *)
Definition products_in (ids market_ids : list Z) : nat :=
  length (filter (fun s => if in_dec Z.eq_dec s market_ids then true else false) ids).

Definition size_of (ids : list Z) (t : Z) : nat := count_occ Z.eq_dec ids t.

(** The number of products in the largest selected market. *)
Definition largest (ids market_ids : list Z) (n : nat) : Prop :=
  (forall t, In t market_ids -> size_of ids t <= n) /\ exists t, In t market_ids /\ size_of ids t = n.

(** Rectangular arrays. *)
Definition rectangular {V} (a : list (list V)) (rows columns : nat) : Prop :=
  length a = rows /\ Forall (fun row => length row = columns) a.
