(** Lemmas about matrices of choice probabilities. *)
From Coq Require Import Reals Lra Lia ZArith List Bool Arith Permutation Sorted.
From Verif Require Import Base DemandModel DemandSpec DemandProofs DemandShares SupplyModel.
From Verif Require Import BasicsModel BasicsSpec BasicsProofs SchedModel SchedSpec SchedProofs PostModel PostSpec PostProofs.
From Verif Require Import ProbModel ProbSpec.
Import ListNotations.
Local Open Scope R_scope.

(* ---------- sums over selected positions ---------- *)

Lemma sumn_app n m f : sumn (n + m) f = sumn n f + sumn m (fun k => f (n + k)%nat).
Proof.
  induction m as [|m IH]; [rewrite Nat.add_0_r; cbn [sumn]; ring|].
  rewrite Nat.add_succ_r. cbn [sumn]. rewrite IH. ring.
Qed.

Lemma sumn_filter (P : nat -> bool) f n :
  sumn (List.length (filter P (seq 0 n))) (fun q => f (nth q (filter P (seq 0 n)) 0%nat))
  = sumn n (fun l => if P l then f l else 0).
Proof.
  induction n as [|n IH]; [reflexivity|].
  rewrite seq_S, filter_app, app_length. cbn [Nat.add filter].
  cbn [sumn]. rewrite <- IH. rewrite sumn_app.
  f_equal.
  - apply sumn_ext. intros q Hq. rewrite app_nth1 by assumption. reflexivity.
  - destruct (P n); cbn [List.length sumn]; [|reflexivity].
    rewrite Nat.add_0_r, app_nth2 by lia. rewrite Nat.sub_diag. cbn [nth]. ring.
Qed.

Lemma sumn_rows ids t f :
  sumn (List.length (rows_of ids t)) (fun q => f (nth q (rows_of ids t) 0%nat))
  = sumn (List.length ids) (fun l => if Z.eqb (nth l ids 0%Z) t then f l else 0).
Proof. exact (sumn_filter (fun l => Z.eqb (nth l ids 0%Z) t) f (List.length ids)). Qed.

(* ---------- from a market to all rows ---------- *)

Section Local.
  Variables (ids : list Z) (t : Z) (H : nat) (nest : nat -> nat) (r : nat -> R) (available : nat -> bool) (V : nat -> R).
  Let rows := rows_of ids t.
  Let J := List.length rows.
  Let N := List.length ids.
  Let row (j : nat) := nth j rows 0%nat.
  Let inc := fun l => Z.eqb (nth l ids 0%Z) t && available l.
  Variables (V' : nat -> R) (inc' : nat -> bool).
  Hypothesis HV : forall j, (j < J)%nat -> V' j = V (row j).
  Hypothesis HA : forall j, (j < J)%nat -> inc' j = available (row j).

  Lemma row_market j : (j < J)%nat -> Z.eqb (nth (row j) ids 0%Z) t = true.
  Proof. intros Hj. apply Z.eqb_eq. apply (rows_row ids t j). rewrite <- rows_size. exact Hj. Qed.

  Lemma inc_row j : (j < J)%nat -> inc (row j) = inc' j.
  Proof. intros Hj. unfold inc. rewrite (row_market j Hj), (HA j Hj). reflexivity. Qed.

  Lemma local_logit j : (j < J)%nat -> logit J inc' true V' j = logit N inc true V (row j).
  Proof using HV HA.
    intros Hj. unfold logit. rewrite (inc_row j Hj), (HV j Hj).
    replace (sumn J (fun k => if inc' k then exp (V' k) else 0))
      with (sumn N (fun k => if inc k then exp (V k) else 0)); [reflexivity|].
    transitivity (sumn N (fun l => if Z.eqb (nth l ids 0%Z) t then (if available l then exp (V l) else 0) else 0)).
    - apply sumn_ext. intros l _. unfold inc. destruct (Z.eqb (nth l ids 0%Z) t); reflexivity.
    - unfold N. rewrite <- sumn_rows. apply sumn_ext. intros k Hk.
      rewrite (HA k Hk), (HV k Hk). reflexivity.
  Qed.

  (* nests of the market *)
  Let nests := filter (fun h => existsb (fun i => Nat.eqb (nest i) h) rows) (seq 0 H).
  Let gid (j : nat) := match index_of (nest (row j)) nests with Some h => h | None => O end.
  Let r' (h : nat) := r (nth h nests 0%nat).
  Hypothesis HH : forall l, (l < N)%nat -> (nest l < H)%nat.

  Lemma nests_nodup : NoDup nests.
  Proof. apply NoDup_filter, seq_NoDup. Qed.

  Lemma nest_in j : (j < J)%nat -> In (nest (row j)) nests.
  Proof using HH.
    intros Hj. apply filter_In.
    assert (I : In (row j) rows) by (apply nth_In; exact Hj).
    split.
    - apply in_seq. split; [lia|]. apply HH. apply (rows_of_in ids t) in I. apply I.
    - apply existsb_exists. exists (row j). split; [exact I|apply Nat.eqb_refl].
  Qed.

  Lemma gid_spec j : (j < J)%nat -> (gid j < List.length nests)%nat /\ nth (gid j) nests 0%nat = nest (row j).
  Proof using HH.
    intros Hj. unfold gid. destruct (index_of (nest (row j)) nests) as [h|] eqn:E.
    - apply index_of_lt in E. exact E.
    - apply index_of_none in E. exfalso. apply E, nest_in, Hj.
  Qed.

  Lemma gid_eqb j h : (j < J)%nat -> (h < List.length nests)%nat ->
    Nat.eqb (gid j) h = Nat.eqb (nest (row j)) (nth h nests 0%nat).
  Proof using HH.
    intros Hj Hh. destruct (gid_spec j Hj) as [A B].
    destruct (Nat.eqb_spec (gid j) h) as [E|E]; symmetry.
    - apply Nat.eqb_eq. rewrite <- B, E. reflexivity.
    - apply Nat.eqb_neq. intros F. apply E. rewrite <- B in F.
      apply (proj1 (NoDup_nth nests 0%nat) nests_nodup); assumption.
  Qed.

  Lemma local_inclusive h : (h < List.length nests)%nat ->
    inclusive J gid r' inc' V' h = inclusive N nest r inc V (nth h nests 0%nat).
  Proof using HV HA HH.
    intros Hh. unfold inclusive.
    transitivity (sumn N (fun l => if Z.eqb (nth l ids 0%Z) t
        then (if available l && Nat.eqb (nest l) (nth h nests 0%nat) then exp (V l / (1 - r (nth h nests 0%nat))) else 0)
        else 0)).
    - unfold N. rewrite <- sumn_rows. apply sumn_ext. intros j Hj.
      rewrite (gid_eqb j h Hj Hh), (HA j Hj), (HV j Hj). reflexivity.
    - apply sumn_ext. intros l _. unfold inc. destruct (Z.eqb (nth l ids 0%Z) t); reflexivity.
  Qed.

  Lemma local_exists h : (h < List.length nests)%nat ->
    existsb (fun k => inc' k && Nat.eqb (gid k) h) (seq 0 J)
    = existsb (fun l => inc l && Nat.eqb (nest l) (nth h nests 0%nat)) (seq 0 N).
  Proof using HV HA HH.
    intros Hh. apply eq_true_iff_eq. rewrite !existsb_seq_group. split.
    - intros [k [Hk E]]. exists (row k). rewrite (inc_row k Hk), <- (gid_eqb k h Hk Hh). split; [|exact E].
      apply (rows_row ids t k). rewrite <- rows_size. exact Hk.
    - intros [l [Hl E]]. unfold inc in E. apply andb_prop in E. destruct E as [E1 E2].
      apply andb_prop in E1. destruct E1 as [E0 E1]. apply Z.eqb_eq in E0.
      assert (I : In l rows) by (apply rows_of_in; split; assumption).
      apply (In_nth _ _ 0%nat) in I. destruct I as [k [Hk Ek]]. exists k. split; [exact Hk|].
      rewrite (gid_eqb k h Hk Hh), (HA k Hk). unfold row. rewrite Ek, E1, E2. reflexivity.
  Qed.

  Lemma local_weight h : (h < List.length nests)%nat ->
    group_weight J gid r' inc' V' h = group_weight N nest r inc V (nth h nests 0%nat).
  Proof using HV HA HH.
    intros Hh. unfold group_weight. rewrite (local_exists h Hh), (local_inclusive h Hh). reflexivity.
  Qed.

  Lemma absent_weight h : existsb (fun i => Nat.eqb (nest i) h) rows = false ->
    group_weight N nest r inc V h = 0.
  Proof using.
    intros E. unfold group_weight.
    destruct (existsb (fun k => inc k && Nat.eqb (nest k) h) (seq 0 N)) eqn:F; [|reflexivity].
    exfalso. apply existsb_seq_group in F. destruct F as [l [Hl F]].
    apply andb_prop in F. destruct F as [F1 F2]. apply andb_prop in F1. destruct F1 as [F0 _].
    apply Z.eqb_eq in F0. apply Bool.not_true_iff_false in E. apply E. apply existsb_exists.
    exists l. split; [apply rows_of_in; split; assumption|exact F2].
  Qed.

  Lemma local_weights : sumn (List.length nests) (group_weight J gid r' inc' V') = sumn H (group_weight N nest r inc V).
  Proof using HV HA HH.
    transitivity (sumn (List.length nests) (fun h => group_weight N nest r inc V (nth h nests 0%nat))).
    - apply sumn_ext. exact local_weight.
    - unfold nests. rewrite (sumn_filter (fun h => existsb (fun i => Nat.eqb (nest i) h) rows)
        (group_weight N nest r inc V) H).
      apply sumn_ext. intros h _.
      destruct (existsb (fun i => Nat.eqb (nest i) h) rows) eqn:E; [reflexivity|].
      symmetry. apply absent_weight. exact E.
  Qed.

  Lemma local_nested j : (j < J)%nat ->
    nested J (List.length nests) gid r' inc' true V' j = nested N H nest r inc true V (row j).
  Proof using HV HA HH.
    intros Hj. destruct (gid_spec j Hj) as [A B]. unfold nested, within_group, group_share.
    rewrite local_weights, (local_weight _ A), (local_inclusive _ A), B, (inc_row j Hj), (HV j Hj).
    unfold r'. rewrite B. reflexivity.
  Qed.
End Local.

(* ---------- economies ---------- *)

(** What is checked of product data, agent data and parameters (primitives.py 55-280, 356-358, economy.py
    139-153), what stored columns mean, and nesting parameters below one. *)
Record consistent (e : economy) (p : population) : Prop := {
  co_products : is_stable_argsort (e_ids e) (e_order e);
  co_agents : is_stable_argsort (p_ids p) (p_order p);
  co_markets : forall t, In t (e_ids e) <-> In t (p_ids p);
  co_nests : e_H e <> O -> forall i, (i < List.length (e_ids e))%nat -> (e_nest e i < e_H e)%nat;
  co_rho_size : e_H e <> O -> (0 < e_rho_size e)%nat;
  co_rho : forall h, (h < e_H e)%nat -> nest_rho (e_rho_size e) (e_rho e) h < 1;
  co_eps : 0 < e_eps e;
  co_eps_nests : e_H e <> O -> e_eps e = 1;
  co_unused_1 : forall k i x y, uses (e_X1 e k) = false -> ev (e_X1 e k) i x = ev (e_X1 e k) i y;
  co_unused_2 : forall k i x y, uses (e_X2 e k) = false -> ev (e_X2 e k) i x = ev (e_X2 e k) i y;
  co_stored : forall k i, e_x2 e i k = ev (e_X2 e k) i (e_prices e i)
}.

(** Utility of product row i to the agent in row n, at given prices and mean utilities. *)
Definition row_utility (e : economy) (p : population) (x : nat -> R) (d : option (nat -> R)) (n i : nat) : R :=
  utility_at (e_K1 e) (fun k => ev (e_X1 e k)) (e_beta e) (e_K2 e) (fun k => ev (e_X2 e k))
    (unobserved (e_K1 e) (fun k => ev (e_X1 e k)) (e_beta e) (e_prices e) (e_delta e)) d x
    (fun k => p_coef p n k (rank (e_ids e) i)) i / e_eps e.

(** Whether product row i is available to the agent in row n. *)
Definition row_available (e : economy) (p : population) (n i : nat) : bool :=
  match p_availability p with Some a => a n (rank (e_ids e) i) | None => true end.

Definition row_probability (e : economy) (p : population) (x : nat -> R) (d : option (nat -> R)) (n i : nat) : R :=
  choice_probability (e_ids e) (e_H e) (e_nest e) (nest_rho (e_rho_size e) (e_rho e))
    (row_available e p n) (row_utility e p x d n) i.

Section Economy.
  Variables (e : economy) (p : population).
  Hypothesis C : consistent e p.
  Notation ids := (e_ids e).
  Notation N := (List.length (e_ids e)).

  Lemma product_rows_of t : In t ids -> product_rows e t = rows_of ids t.
  Proof. intros Ht. apply market_indices_rows; [apply C|exact Ht]. Qed.

  Lemma agent_rows_of t : In t ids -> agent_rows p t = rows_of (p_ids p) t.
  Proof. intros Ht. apply market_indices_rows; [apply C|]. apply (co_markets _ _ C). exact Ht. Qed.

  Lemma local_nests_of t : In t ids ->
    local_nests e t = filter (fun h => existsb (fun i => Nat.eqb (e_nest e i) h) (rows_of ids t)) (seq 0 (e_H e)).
  Proof. intros Ht. unfold local_nests. rewrite product_rows_of by exact Ht. reflexivity. Qed.

  Lemma no_nests t : In t ids -> (List.length (local_nests e t) = 0%nat <-> e_H e = 0%nat).
  Proof.
    intros Ht. split.
    - intros E. destruct (Nat.eq_dec (e_H e) 0) as [Z|Z]; [exact Z|exfalso].
      assert (S := size_pos ids t Ht). rewrite <- rows_size in S.
      assert (I := nest_in ids t (e_H e) (e_nest e) (co_nests _ _ C Z) 0 S).
      rewrite <- local_nests_of in I by exact Ht.
      destruct (local_nests e t); [destruct I|discriminate].
    - intros E. unfold local_nests. rewrite E. reflexivity.
  Qed.

  Lemma market_valid t : In t ids -> valid_market (fm (market_of e p t)).
  Proof.
    intros Ht. unfold market_of. cbn [fm]. rewrite product_rows_of by exact Ht.
    assert (Z : e_H e <> 0%nat -> forall h, (h < List.length (local_nests e t))%nat ->
       (nth h (local_nests e t) 0 < e_H e)%nat).
    { intros _ h Hh. assert (I := nth_In (local_nests e t) 0%nat Hh). unfold local_nests in I.
      apply filter_In in I. destruct I as [I _]. apply in_seq in I. unfold local_nests. lia. }
    assert (NZ : List.length (local_nests e t) <> 0%nat -> e_H e <> 0%nat) by (rewrite (no_nests t Ht); auto).
    constructor; cbn [mJ mH gid grho rho_multi eps_scale].
    - rewrite rows_size. apply size_pos. exact Ht.
    - intros HH j Hj. rewrite local_nests_of by exact Ht.
      apply (gid_spec ids t (e_H e) (e_nest e) (co_nests _ _ C (NZ HH)) j Hj).
    - intros HH h Hh. apply (co_rho _ _ C). apply Z; [exact (NZ HH)|exact Hh].
    - intros E a b Ha Hb. apply Nat.ltb_ge in E.
      assert (Ha' : (0 < e_rho_size e)%nat) by (apply (co_rho_size _ _ C), NZ; lia).
      destruct (Nat.eqb_spec (e_rho_size e) 1); [reflexivity|lia].
    - apply C.
    - intros HH. apply (co_eps_nests _ _ C), NZ, HH.
  Qed.

  (** Utilities of the market's products to one of its agents. *)
  Lemma local_mu (prices : option (nat -> R)) t i j : In t ids -> (j < size_of ids t)%nat ->
    (match prices with
     | None => compute_mu (market_of e p t) (X2_0 (market_of e p t))
     | Some x => update_mu (market_of e p t) (fun j => x (nth j (rows_of ids t) 0%nat))
     end) i j
    = sumn (e_K2 e) (fun k => ev (e_X2 e k) (nth j (rows_of ids t) 0%nat)
        (match prices with Some x => x | None => e_prices e end (nth j (rows_of ids t) 0%nat))
        * p_coef p (nth i (agent_rows p t) 0%nat) k j).
  Proof.
    intros Ht Hj. destruct prices as [x|]; unfold update_mu, compute_mu, market_of;
      cbn [fK2 fX2 fcoef X2_0]; rewrite product_rows_of by exact Ht; apply sumn_ext; intros k _;
      cbn [restrict_column uses ev].
    - destruct (uses (e_X2 e k)) eqn:U; [reflexivity|]. rewrite (co_stored _ _ C).
      rewrite (co_unused_2 _ _ C k _ _ (x (nth j (rows_of ids t) 0%nat)) U). reflexivity.
    - rewrite (co_stored _ _ C). reflexivity.
  Qed.

  Lemma local_delta (delta prices : option (nat -> R)) t j : In t ids -> (j < size_of ids t)%nat ->
    (match delta, prices with
     | Some d, _ => fun j => d (nth j (rows_of ids t) 0%nat)
     | None, Some x => update_delta (market_of e p t) (fun j => x (nth j (rows_of ids t) 0%nat))
     | None, None => delta0 (market_of e p t)
     end) j
    = match delta with
      | Some d => d (nth j (rows_of ids t) 0%nat)
      | None =>
          unobserved (e_K1 e) (fun k => ev (e_X1 e k)) (e_beta e) (e_prices e) (e_delta e) (nth j (rows_of ids t) 0%nat)
          + sumn (e_K1 e) (fun k => e_beta e k * ev (e_X1 e k) (nth j (rows_of ids t) 0%nat)
              (match prices with Some x => x | None => e_prices e end (nth j (rows_of ids t) 0%nat)))
      end.
  Proof.
    intros Ht Hj. destruct delta as [d|]; [reflexivity|].
    unfold unobserved. destruct prices as [x|]; unfold update_delta, market_of;
      cbn [delta0 fK1 fX1 fbeta var0]; rewrite product_rows_of by exact Ht; [|ring].
    unfold Rminus at 2. rewrite Rplus_assoc. f_equal.
    rewrite <- sumn_opp, <- sumn_plus. apply sumn_ext. intros k _. cbn [restrict_column uses ev].
    destruct (uses (e_X1 e k)) eqn:U; [ring|].
    rewrite (co_unused_1 _ _ C k _ (e_prices e (nth j (rows_of ids t) 0%nat)) (x (nth j (rows_of ids t) 0%nat)) U). ring.
  Qed.

  (** Elements of a market's matrix. *)
  Lemma market_element prices delta t j i (x : option (nat -> R)) (d : option (nat -> R)) :
    In t ids -> (j < size_of ids t)%nat -> (i < size_of (p_ids p) t)%nat ->
    (match prices, x with
     | None, None => True
     | Some a, Some x => forall j, (j < size_of ids t)%nat -> column_value a j = x (nth j (rows_of ids t) 0%nat)
     | _, _ => False
     end) ->
    (match delta, d with
     | None, None => True
     | Some a, Some d => forall j, (j < size_of ids t)%nat -> column_value a j = d (nth j (rows_of ids t) 0%nat)
     | _, _ => False
     end) ->
    element (market_probabilities e p prices delta t) j i
    = Some (row_probability e p (match x with Some x => x | None => e_prices e end) d
              (nth i (rows_of (p_ids p) t) 0%nat) (nth j (rows_of ids t) 0%nat)).
  Proof.
    intros Ht Hj Hi Hx Hd.
    assert (V := market_valid t Ht).
    assert (EJ : mJ (fm (market_of e p t)) = List.length (rows_of ids t)).
    { unfold market_of. cbn [fm mJ]. rewrite product_rows_of by exact Ht. reflexivity. }
    assert (EI : fI (market_of e p t) = size_of (p_ids p) t).
    { unfold market_of. cbn [fI]. rewrite agent_rows_of by exact Ht. apply rows_size. }
    unfold market_probabilities, element.
    set (mu := match prices with
               | None => compute_mu (market_of e p t) (X2_0 (market_of e p t))
               | Some a => update_mu (market_of e p t) (column_value a)
               end).
    set (dl := match delta with
               | Some b => column_value b
               | None => match prices with
                         | Some a => update_delta (market_of e p t) (column_value a)
                         | None => delta0 (market_of e p t)
                         end
               end).
    set (f := fun j => map _ _).
    rewrite (nth_indep _ [] (f 0%nat)) by (rewrite map_length, seq_length, EJ, rows_size; exact Hj).
    rewrite (map_nth f), seq_nth by (rewrite EJ, rows_size; exact Hj).
    unfold f. rewrite (map_nth_error _ i (seq 0 (fI (market_of e p t))) (d := i)).
    2:{ rewrite (nth_error_nth' _ 0%nat) by (rewrite seq_length, EI; exact Hi).
        rewrite seq_nth by (rewrite EI; exact Hi). reflexivity. }
    f_equal. cbn [Nat.add].
    set (n := nth i (rows_of (p_ids p) t) 0%nat).
    assert (En : nth i (agent_rows p t) 0%nat = n) by (rewrite agent_rows_of by exact Ht; reflexivity).
    (* utilities *)
    assert (HV : forall q, (q < List.length (rows_of ids t))%nat ->
      utility (fm (market_of e p t)) dl (mu i) q
      = row_utility e p (match x with Some x => x | None => e_prices e end) d n (nth q (rows_of ids t) 0%nat)).
    { intros q Hq. rewrite rows_size in Hq. unfold utility, row_utility, utility_at.
      replace (eps_scale (fm (market_of e p t))) with (e_eps e) by reflexivity. f_equal.
      assert (Em : mu i q = sumn (e_K2 e) (fun k => ev (e_X2 e k) (nth q (rows_of ids t) 0%nat)
        (match x with Some x => x | None => e_prices e end (nth q (rows_of ids t) 0%nat))
        * p_coef p n k (rank ids (nth q (rows_of ids t) 0%nat)))).
      { destruct (rows_row ids t q Hq) as (_ & _ & Er). rewrite Er, <- En.
        rewrite <- (local_mu x t i q Ht Hq). unfold mu.
        destruct prices as [a|], x as [x|]; try contradiction; [|reflexivity].
        unfold update_mu, compute_mu. apply sumn_ext. intros k _. rewrite (Hx q Hq). reflexivity. }
      assert (Ed : dl q = match d with
        | Some d => d (nth q (rows_of ids t) 0%nat)
        | None =>
          unobserved (e_K1 e) (fun k => ev (e_X1 e k)) (e_beta e) (e_prices e) (e_delta e) (nth q (rows_of ids t) 0%nat)
          + sumn (e_K1 e) (fun k => e_beta e k * ev (e_X1 e k) (nth q (rows_of ids t) 0%nat)
              (match x with Some x => x | None => e_prices e end (nth q (rows_of ids t) 0%nat)))
        end).
      { rewrite <- (local_delta d x t q Ht Hq). unfold dl.
        destruct delta as [b|], d as [d|]; try contradiction.
        - rewrite (Hd q Hq). reflexivity.
        - destruct prices as [a|], x as [x|]; try contradiction; [|reflexivity].
          unfold update_delta. f_equal. apply sumn_ext. intros k _. rewrite (Hx q Hq). reflexivity. }
      rewrite Em, Ed. reflexivity. }
    (* availability *)
    set (av := option_map (fun a => a n) (p_availability p)).
    assert (EC : choice_of p t i = choice_with true av None None).
    { unfold choice_of, choice_with, av. cbn [negb]. f_equal. rewrite En. destruct (p_availability p); reflexivity. }
    assert (HA : forall q, (q < List.length (rows_of ids t))%nat ->
      included av None None q = row_available e p n (nth q (rows_of ids t) 0%nat)).
    { intros q Hq. rewrite rows_size in Hq. destruct (rows_row ids t q Hq) as (_ & _ & Er).
      unfold included, av, row_available. rewrite Er. destruct (p_availability p) as [a|]; cbn [option_map];
        rewrite ?andb_true_r; reflexivity. }
    rewrite EC. unfold row_probability, choice_probability.
    destruct (rows_row ids t j Hj) as (_ & Et & _). rewrite Et.
    destruct (probabilities_spec (fm (market_of e p t)) true true av None None dl (mu i) V) as [P0 P1].
    assert (EH : mH (fm (market_of e p t)) = List.length (local_nests e t)) by reflexivity.
    assert (Hj' : (j < mJ (fm (market_of e p t)))%nat) by (rewrite EJ, rows_size; exact Hj).
    destruct (Nat.eqb_spec (e_H e) 0) as [Z|Z].
    - destruct P0 as [P0 _]; [rewrite EH; apply no_nests; assumption|].
      rewrite (P0 j Hj'), EJ. apply local_logit; [exact HV|exact HA|rewrite rows_size; exact Hj].
    - destruct P1 as [P1 _]; [rewrite EH, no_nests by exact Ht; exact Z|].
      rewrite (P1 j Hj'), EJ, EH, local_nests_of by exact Ht.
      assert (HL := local_nested ids t (e_H e) (e_nest e) (nest_rho (e_rho_size e) (e_rho e)) (row_available e p n) _ _ _
        HV HA (co_nests _ _ C Z) j).
      rewrite rows_size in HL at 1. rewrite <- HL by exact Hj.
      unfold market_of. cbn [fm gid grho]. unfold nest_rho.
      rewrite local_nests_of, product_rows_of by exact Ht. reflexivity.
  Qed.
End Economy.

(* ---------- stacked matrices ---------- *)

(** A column vector. *)
Definition vector (n : nat) (x : nat -> R) : @stacked R :=
  {| st_rows := n; st_columns := 1; st_cell := fun i _ => Some (x i) |}.

Lemma fold_total (f : nat -> R) l : forall q n, List.length l = n ->
  fold_right Rplus 0 (map (fun iv => snd iv * f (fst iv)) (combine (seq q n) l))
  = sumn n (fun i => nth i l 0 * f (q + i)%nat).
Proof.
  induction l as [|v l IH]; intros q n E; [subst n; reflexivity|].
  destruct n as [|n]; [discriminate|]. injection E as E.
  change (S n) with (1 + n)%nat at 2. rewrite sumn_app. cbn [seq combine map fold_right fst snd sumn nth Nat.add].
  rewrite Nat.add_0_r, (IH (S q) n E). f_equal; [ring|]. apply sumn_ext. intros i _. f_equal. f_equal. lia.
Qed.

Lemma total_over_nth (f : nat -> R) l : total_over f l = sumn (List.length l) (fun i => f (nth i l 0%nat)).
Proof.
  induction l as [|n l IH]; [reflexivity|]. cbn [List.length]. change (S (List.length l)) with (1 + List.length l)%nat.
  rewrite sumn_app. cbn [sumn nth total_over fold_right Nat.add]. unfold total_over in IH. rewrite IH. ring.
Qed.

Lemma most_max sizes : sizes <> [] -> most (list_max_of sizes) sizes.
Proof. intros E. split; [apply list_max_ge|apply list_max_in; exact E]. Qed.

Lemma distinct_not_nil ids u : sorted_distinct ids u -> ids <> [] -> u <> [].
Proof.
  intros [_ HI] HN E. destruct ids as [|t l]; [congruence|].
  assert (In t u) as J by (apply HI; left; reflexivity). rewrite E in J. destruct J.
Qed.

Lemma max_ones (u : list Z) : u <> [] -> list_max_of (map (fun _ => 1%nat) u) = 1%nat.
Proof.
  intros NE. destruct u as [|t u]; [contradiction|]. clear NE. cbn [map list_max_of fold_right].
  induction u as [|s u IH]; [reflexivity|]. cbn [map fold_right] in *. lia.
Qed.

Section Stack.
  Variables (e : economy) (p : population).
  Hypothesis C : consistent e p.
  Notation ids := (e_ids e).
  Notation N := (List.length (e_ids e)).

  Lemma probabilities_rectangular prices delta t : In t ids ->
    rectangular (market_probabilities e p prices delta t) (size_of ids t) (size_of (p_ids p) t).
  Proof.
    intros Ht. unfold market_probabilities. cbv zeta. split.
    - rewrite map_length, seq_length. unfold market_of. cbn [fm mJ].
      rewrite (product_rows_of e p C t Ht). apply rows_size.
    - apply Forall_forall. intros row I. apply in_map_iff in I. destruct I as [j [<- _]].
      rewrite map_length, seq_length. unfold market_of. cbn [fI].
      rewrite (agent_rows_of e p C t Ht). apply rows_size.
  Qed.

  Lemma shares_length prices delta t : In t ids ->
    rectangular (market_shares_column e p prices delta t) (size_of ids t) 1.
  Proof.
    intros Ht. unfold market_shares_column. split.
    - rewrite map_length. apply probabilities_rectangular. exact Ht.
    - apply Forall_forall. intros row I. apply in_map_iff in I. destruct I as [j [<- _]]. reflexivity.
  Qed.

  Lemma element_beyond {V} (a : list (list V)) r c i j : rectangular a r c -> (c <= j)%nat -> element a i j = None.
  Proof.
    intros [L F] Hj. unfold element. destruct (nth_in_or_default i a []) as [I| ->].
    - rewrite Forall_forall in F. apply F in I. apply nth_error_None. lia.
    - apply nth_error_None. simpl. lia.
  Qed.

  Lemma shares_element prices delta t j : In t ids -> (j < size_of ids t)%nat ->
    forall g, (forall i, (i < size_of (p_ids p) t)%nat ->
      element (market_probabilities e p prices delta t) j i = Some (g (nth i (rows_of (p_ids p) t) 0%nat))) ->
    element (market_shares_column e p prices delta t) j 0
    = Some (total_over (fun n => g n * p_weights p n) (rows_of (p_ids p) t)).
  Proof.
    intros Ht Hj g G. destruct (probabilities_rectangular prices delta t Ht) as [L F].
    unfold market_shares_column, element in *.
    set (h := fun row => [row_total _ row]).
    rewrite (nth_indep _ [] (h [])) by (rewrite map_length, L; exact Hj). rewrite map_nth. unfold h. cbn [nth_error].
    f_equal. unfold row_total.
    set (row := nth j (market_probabilities e p prices delta t) []) in *.
    assert (Lr : List.length row = size_of (p_ids p) t).
    { rewrite Forall_forall in F. apply F. apply nth_In. rewrite L. exact Hj. }
    rewrite Lr, fold_total by exact Lr. rewrite total_over_nth, rows_size. apply sumn_ext. intros i Hi.
    assert (Gi := G i Hi). apply (nth_error_nth _ _ 0) in Gi. rewrite Gi. cbn [Nat.add]. f_equal.
    unfold market_of. cbn [fw]. rewrite (agent_rows_of e p C t Ht). reflexivity.
  Qed.

  (* arguments that are accepted *)
  Lemma coerce_vector sel n x : n = products_in ids sel ->
    coerce_optional e sel (option_map (vector n) x) = Some (option_map (vector n) x).
  Proof.
    intros E. destruct x as [x|]; [|reflexivity]. cbn [option_map coerce_optional].
    replace (coerce_column (get_indices ids (e_order e)) sel (vector n x)) with (Some (vector n x)); [reflexivity|].
    symmetry. apply (coerce_column_shape ids (e_order e) sel); [apply C|]. cbn [vector st_rows st_columns].
    split; [reflexivity|]. split; [exact E|reflexivity].
  Qed.

  Section AllMarkets.
    Variables (u order : list Z) (x d : option (nat -> R)).
    Hypothesis HU : sorted_distinct ids u.
    Hypothesis HO : Permutation order u.
    Hypothesis HG : N <> List.length u \/ StronglySorted Z.le ids.
    Hypothesis HN : ids <> [].

    Let args t := optional_argument e u (option_map (vector N) x) t.
    Let argd t := optional_argument e u (option_map (vector N) d) t.

    Lemma all_argument (v : option (nat -> R)) t : In t ids ->
      match optional_argument e u (option_map (vector N) v) t, v with
      | None, None => True
      | Some a, Some v => forall j, (j < size_of ids t)%nat -> column_value a j = v (nth j (rows_of ids t) 0%nat)
      | _, _ => False
      end.
    Proof using C HU.
      intros Ht. destruct v as [v|]; [|exact I]. cbn [option_map optional_argument].
      intros j Hj. unfold column_value, product_rows.
      rewrite (argument_row ids (e_order e) u (co_products _ _ C) HU) by assumption. reflexivity.
    Qed.

    Lemma all_element t j i : In t ids -> (j < size_of ids t)%nat -> (i < size_of (p_ids p) t)%nat ->
      element (market_probabilities e p (args t) (argd t) t) j i
      = Some (row_probability e p (match x with Some x => x | None => e_prices e end) d
              (nth i (rows_of (p_ids p) t) 0%nat) (nth j (rows_of ids t) 0%nat)).
    Proof using C HU.
      intros Ht Hj Hi. apply (market_element e p C (args t) (argd t) t j i x d Ht Hj Hi); apply all_argument; exact Ht.
    Qed.

    Lemma row_of_rank i : (i < N)%nat -> nth (rank ids i) (rows_of ids (nth i ids 0%Z)) 0%nat = i.
    Proof. intros Hi. apply index_of_lt. apply index_of_rows. exact Hi. Qed.

    Lemma u_not_nil : u <> [].
    Proof using HU HN. exact (distinct_not_nil ids u HU HN). Qed.

    Lemma stacked_probabilities : exists r,
      compute_probabilities e p u order (option_map (vector N) x) (option_map (vector N) d) = Some r /\
      st_rows r = N /\ most (st_columns r) (map (size_of (p_ids p)) u) /\
      forall i k, (i < N)%nat ->
      st_cell r i k =
        if Nat.ltb k (size_of (p_ids p) (nth i ids 0%Z))
        then Some (row_probability e p (match x with Some x => x | None => e_prices e end) d
                     (nth k (rows_of (p_ids p) (nth i ids 0%Z)) 0%nat) i)
        else None.
    Proof using C HU HO HG HN.
      unfold compute_probabilities, compute_with. rewrite !coerce_vector
        by (symmetry; apply all_products; intros t; apply HU).
      eexists. split; [reflexivity|]. split.
      { apply combined_rows; try assumption. intros t Ht. apply probabilities_rectangular. exact Ht. }
      split.
      { cbn [combined st_columns].
        assert (E : map (fun t => width (market_probabilities e p (args t) (argd t) t)) u = map (size_of (p_ids p)) u).
        { apply map_ext_in. intros t Ht. apply HU in Ht.
          eapply width_rectangular; [apply probabilities_rectangular; exact Ht|apply size_pos; exact Ht]. }
        unfold args, argd in E. rewrite E. apply most_max. intros F. apply map_eq_nil in F. exact (u_not_nil F). }
      intros i k Hi. cbn [combined st_cell]. unfold product_rows.
      assert (Ht : In (nth i ids 0%Z) ids) by (apply nth_In; exact Hi).
      rewrite (combine_products ids (e_order e) u order _ (co_products _ _ C) HU HO);
        [|intros t It; rewrite rows_size; apply probabilities_rectangular; exact It|exact HG|exact Hi].
      destruct (Nat.ltb_spec k (size_of (p_ids p) (nth i ids 0%Z))) as [Hk|Hk].
      - rewrite all_element; [|exact Ht|apply rank_size; exact Hi|exact Hk]. rewrite row_of_rank by exact Hi. reflexivity.
      - eapply element_beyond; [apply probabilities_rectangular; exact Ht|exact Hk].
    Qed.

    Lemma stacked_shares : exists r,
      compute_shares e p u order (option_map (vector N) x) (option_map (vector N) d) = Some r /\
      st_rows r = N /\ st_columns r = 1%nat /\
      forall i, (i < N)%nat ->
      st_cell r i 0 =
        Some (total_over (fun n => row_probability e p (match x with Some x => x | None => e_prices e end) d n i
                                   * p_weights p n) (rows_of (p_ids p) (nth i ids 0%Z))).
    Proof using C HU HO HG HN.
      unfold compute_shares, compute_with. rewrite !coerce_vector
        by (symmetry; apply all_products; intros t; apply HU).
      eexists. split; [reflexivity|]. split.
      { apply combined_rows; try assumption. intros t Ht. apply shares_length. exact Ht. }
      split.
      { cbn [combined st_columns].
        assert (E : map (fun t => width (market_shares_column e p (args t) (argd t) t)) u = map (fun _ => 1%nat) u).
        { apply map_ext_in. intros t Ht. apply HU in Ht.
          eapply width_rectangular; [apply shares_length; exact Ht|apply size_pos; exact Ht]. }
        unfold args, argd in E. rewrite E. exact (max_ones u u_not_nil). }
      intros i Hi. cbn [combined st_cell]. unfold product_rows.
      assert (Ht : In (nth i ids 0%Z) ids) by (apply nth_In; exact Hi).
      rewrite (combine_products ids (e_order e) u order _ (co_products _ _ C) HU HO);
        [|intros t It; rewrite rows_size; apply shares_length; exact It|exact HG|exact Hi].
      rewrite (shares_element _ _ _ _ Ht (rank_size ids i Hi)
        (fun n => row_probability e p (match x with Some x => x | None => e_prices e end) d n i)); [reflexivity|].
      intros k Hk. assert (A := all_element (nth i ids 0%Z) (rank ids i) k Ht (rank_size ids i Hi) Hk).
      rewrite row_of_rank in A by exact Hi. exact A.
    Qed.

    (** Whether diagonals of probabilities can be extracted. *)
    Lemma probability_diagonals order' : exists r,
      compute_probabilities e p u order (option_map (vector N) x) (option_map (vector N) d) = Some r /\
      forall n, largest ids u n ->
      (extract_diagonals ids (e_order e) u order' r <> None <-> most n (map (size_of (p_ids p)) u)).
    Proof using C HU HO HG HN.
      destruct stacked_probabilities as (r & E & Er & Ec & _). exists r. split; [exact E|]. intros n Hn.
      unfold extract_diagonals.
      assert (S := coerce_matrices_shape ids (e_order e) u r r (co_products _ _ C) u_not_nil (fun t => proj1 (proj2 HU t))).
      assert (U : forall a b, most a (map (size_of (p_ids p)) u) -> most b (map (size_of (p_ids p)) u) -> a = b).
      { intros a b [A1 A2] [B1 B2]. apply A1 in B2. apply B1 in A2. lia. }
      destruct (coerce_matrices (get_indices ids (e_order e)) u r) as [r'|] eqn:E'.
      - split; [intros _|discriminate].
        assert (r' = r) as ->.
        { unfold coerce_matrices in E'. destruct (_ && _); [injection E' as <-; reflexivity|discriminate]. }
        destruct (proj1 S eq_refl) as (_ & _ & Sc). rewrite (largest_unique ids u n (st_columns r) Hn Sc). exact Ec.
      - split; [intros F; contradiction|]. intros M. exfalso.
        assert (F : None = Some r); [|discriminate]. apply S. split; [reflexivity|].
        rewrite Er, all_products by (intros t; apply HU). split; [reflexivity|].
        rewrite (U _ _ Ec M). exact Hn.
    Qed.
  End AllMarkets.

  Section OneMarket.
    Variables (t : Z) (x d : option (nat -> R)).
    Hypothesis Ht : In t ids.
    Let given (v : option (nat -> R)) : option (@stacked R) :=
      option_map (fun v => vector (size_of ids t) (fun q => v (nth q (rows_of ids t) 0%nat))) v.

    Lemma one_argument (v : option (nat -> R)) :
      match optional_argument e [t] (given v) t, v with
      | None, None => True
      | Some a, Some v => forall j, (j < size_of ids t)%nat -> column_value a j = v (nth j (rows_of ids t) 0%nat)
      | _, _ => False
      end.
    Proof using Ht.
      destruct v as [v|]; [|exact I]. cbn [given option_map optional_argument]. intros j Hj. reflexivity.
    Qed.

    Lemma coerce_given v : coerce_optional e [t] (given v) = Some (given v).
    Proof using C Ht.
      destruct v as [v|]; [|reflexivity].
      exact (coerce_vector [t] (size_of ids t) (Some _) (eq_sym (one_products ids t))).
    Qed.

    Lemma one_probabilities : exists r,
      compute_probabilities e p [t] [t] (given x) (given d) = Some r /\
      st_rows r = size_of ids t /\ st_columns r = size_of (p_ids p) t /\
      forall q k, (q < size_of ids t)%nat -> (k < size_of (p_ids p) t)%nat ->
      st_cell r q k = Some (row_probability e p (match x with Some x => x | None => e_prices e end) d
                     (nth k (rows_of (p_ids p) t) 0%nat) (nth q (rows_of ids t) 0%nat)).
    Proof using C Ht.
      unfold compute_probabilities, compute_with. rewrite !coerce_given.
      eexists. split; [reflexivity|].
      set (f := fun s : Z => market_probabilities e p (optional_argument e [t] (given x) s)
        (optional_argument e [t] (given d) s) s).
      assert (F : rectangular (f t) (size_of ids t) (size_of (p_ids p) t)).
      { change (f t) with (market_probabilities e p (optional_argument e [t] (given x) t) (optional_argument e [t] (given d) t) t).
        apply probabilities_rectangular. exact Ht. }
      split; [cbn [combined st_rows total_rows fold_right]; rewrite Nat.add_0_r; apply F|].
      split.
      { cbn [combined st_columns map list_max_of fold_right].
        rewrite (width_rectangular _ _ _ F (size_pos ids t Ht)). lia. }
      intros q k Hq Hk. cbn [combined st_cell]. unfold product_rows.
      rewrite (combine_single ids (e_order e) t f (co_products _ _ C) Ht).
      - exact (market_element e p C (optional_argument e [t] (given x) t) (optional_argument e [t] (given d) t) t q k x d
          Ht Hq Hk (one_argument x) (one_argument d)).
      - right. rewrite rows_size. apply F.
      - replace (List.length (f t)) with (size_of ids t) by (symmetry; apply F). exact Hq.
    Qed.
  End OneMarket.
End Stack.
