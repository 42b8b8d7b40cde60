(** Importance sampling is unbiased. *)
From Coq Require Import Reals Lra Lia List Bool Arith FunctionalExtensionality.
From Verif Require Import Base SchedModel DemandProofs ImpSpec.
Import ListNotations.
Local Open Scope R_scope.

Section Law.
  Variables (numbers : R -> Prop) (U : (R -> R) -> R) (n : nat) (f : nat -> R).
  Hypothesis HU : uniform_law numbers U.

  Lemma U_cases a (A B : R) : numbers a -> U (fun u => if Rlt_dec u a then A else B) = a * A + (1 - a) * B.
  Proof using HU.
    intro Ha. assert (L := law_below _ _ HU a Ha).
    replace (fun u => if Rlt_dec u a then A else B) with (fun u => B * 1 + (A - B) * (if Rlt_dec u a then 1 else 0)).
    2: { apply functional_extensionality; intro u. destruct (Rlt_dec u a); ring. }
    rewrite (law_plus _ _ HU (fun _ => B * 1) (fun u => (A - B) * _)).
    rewrite (law_scale _ _ HU B (fun _ => 1)), (law_scale _ _ HU (A - B)), (law_total _ _ HU), L. ring.
  Qed.

  Lemma CM_ext N g1 g2 : (forall xs us, List.length xs = N -> List.length us = N -> g1 xs us = g2 xs us) ->
    candidates_mean U n f N g1 = candidates_mean U n f N g2.
  Proof using.
    revert g1 g2. induction N as [|N IH]; intros g1 g2 E; cbn [candidates_mean]; [apply E; reflexivity|].
    apply sumn_ext. intros x _. f_equal. f_equal. apply functional_extensionality; intro u. apply IH.
    intros xs us H1 H2. apply E; cbn; congruence.
  Qed.
  Lemma CM_plus N g1 g2 : candidates_mean U n f N (fun xs us => g1 xs us + g2 xs us) =
    candidates_mean U n f N g1 + candidates_mean U n f N g2.
  Proof using HU.
    revert g1 g2. induction N as [|N IH]; intros g1 g2; cbn [candidates_mean]; [reflexivity|].
    rewrite <- sumn_plus. apply sumn_ext. intros x _. rewrite <- Rmult_plus_distr_l. f_equal. rewrite <- (law_plus _ _ HU). f_equal.
    apply functional_extensionality; intro u. apply IH.
  Qed.
  Lemma CM_scale N c g : candidates_mean U n f N (fun xs us => c * g xs us) = c * candidates_mean U n f N g.
  Proof using HU.
    revert g. induction N as [|N IH]; intros g; cbn [candidates_mean]; [reflexivity|].
    rewrite <- sumn_scal. apply sumn_ext. intros x _. rewrite <- Rmult_assoc, (Rmult_comm c), Rmult_assoc. f_equal. rewrite <- (law_scale _ _ HU). f_equal.
    apply functional_extensionality; intro u. apply IH.
  Qed.

  (** Sums over accepted candidates. *)
  Variable a : nat -> R.
  Hypothesis Ha : forall x, (x < n)%nat -> numbers (a x).
  Fixpoint accepted_count (xs : list nat) (us : list R) : nat :=
    match xs, us with
    | x :: xs, u :: us => if Rlt_dec u (a x) then S (accepted_count xs us) else accepted_count xs us
    | _, _ => O
    end.
  Fixpoint accepted_sum (g : nat -> R) (xs : list nat) (us : list R) : R :=
    match xs, us with
    | x :: xs, u :: us => if Rlt_dec u (a x) then g x + accepted_sum g xs us else accepted_sum g xs us
    | _, _ => 0
    end.

  Lemma accepted_step N (c : nat -> R) g :
    candidates_mean U n f (S N) (fun xs us => c (accepted_count xs us) * accepted_sum g xs us) =
    sumn n (fun x => f x * a x * g x) * candidates_mean U n f N (fun xs us => c (S (accepted_count xs us)))
    + sumn n (fun x => f x * a x) * candidates_mean U n f N (fun xs us => c (S (accepted_count xs us)) * accepted_sum g xs us)
    + sumn n (fun x => f x * (1 - a x)) * candidates_mean U n f N (fun xs us => c (accepted_count xs us) * accepted_sum g xs us).
  Proof using HU Ha.
    cbn [candidates_mean]. rewrite !(Rmult_comm (sumn n _)), <- !sumn_scal, <- !sumn_plus. apply sumn_ext. intros x Hx.
    replace (fun u => candidates_mean U n f N (fun xs us => c (accepted_count (x :: xs) (u :: us)) * accepted_sum g (x :: xs) (u :: us)))
      with (fun u => if Rlt_dec u (a x) then
        g x * candidates_mean U n f N (fun xs us => c (S (accepted_count xs us))) + candidates_mean U n f N (fun xs us => c (S (accepted_count xs us)) * accepted_sum g xs us)
        else candidates_mean U n f N (fun xs us => c (accepted_count xs us) * accepted_sum g xs us)).
    2: { apply functional_extensionality; intro u. cbn [accepted_count accepted_sum]. destruct (Rlt_dec u (a x)); [|reflexivity].
         rewrite <- CM_scale, <- CM_plus. apply CM_ext. intros xs us _ _. ring. }
    rewrite (U_cases (a x) _ _ (Ha x Hx)). ring.
  Qed.

  Lemma accepted_ratio rho g : sumn n (fun x => f x * a x * g x) = rho * sumn n (fun x => f x * a x) ->
    forall N c, candidates_mean U n f N (fun xs us => c (accepted_count xs us) * accepted_sum g xs us)
      = rho * candidates_mean U n f N (fun xs us => c (accepted_count xs us) * accepted_sum (fun _ => 1) xs us).
  Proof using HU Ha.
    intros Hg N. induction N as [|N IH]; intro c; [cbn; ring|].
    rewrite !accepted_step, Hg, (IH (fun m => c (S m))), (IH c).
    rewrite (sumn_ext n (fun x => f x * a x * 1) (fun x => f x * a x)) by (intros; ring). ring.
  Qed.

  Lemma accepted_ones xs us : accepted_sum (fun _ => 1) xs us = INR (accepted_count xs us).
  Proof using.
    revert us. induction xs as [|x xs IH]; intros [|u us]; cbn [accepted_sum accepted_count]; try reflexivity.
    destruct (Rlt_dec u (a x)); rewrite IH; [rewrite S_INR; ring|reflexivity].
  Qed.

  (** Accepted indices. *)
  Definition accepts (xs : list nat) (us : list R) (i : nat) : bool :=
    if Rlt_dec (nth i us 0) (a (nth i xs O)) then true else false.
  Lemma seq_S m : seq 0 (S m) = O :: map S (seq 0 m).
  Proof using. cbn. f_equal. symmetry. apply seq_shift. Qed.
  Lemma filter_map_S (t : nat -> bool) l : filter t (map S l) = map S (filter (fun i => t (S i)) l).
  Proof using. induction l as [|i l IH]; cbn; [reflexivity|]. destruct (t (S i)); cbn; rewrite IH; reflexivity. Qed.
  Lemma accepted_length xs us : List.length xs = List.length us ->
    List.length (filter (accepts xs us) (seq 0 (List.length xs))) = accepted_count xs us.
  Proof using.
    revert us. induction xs as [|x xs IH]; intros [|u us] E; cbn in E; try discriminate; [reflexivity|].
    cbn [List.length]. rewrite seq_S. cbn [filter]. rewrite filter_map_S.
    unfold accepts at 1. cbn [nth]. change (fun i => accepts (x :: xs) (u :: us) (S i)) with (accepts xs us).
    cbn [accepted_count]. destruct (Rlt_dec u (a x)); cbn [List.length]; rewrite map_length, IH by congruence; reflexivity.
  Qed.
  Lemma sumn_S (m : nat) (g : nat -> R) : sumn (S m) g = g O + sumn m (fun i => g (S i)).
  Proof using. induction m as [|m IH]; [cbn; ring|]. cbn [sumn] in *. rewrite IH. ring. Qed.
  Lemma accepted_sumn g xs us : List.length xs = List.length us ->
    sumn (List.length xs) (fun i => if accepts xs us i then g (nth i xs O) else 0) = accepted_sum g xs us.
  Proof using.
    revert us. induction xs as [|x xs IH]; intros [|u us] E; cbn in E; try discriminate; [reflexivity|].
    cbn [List.length]. rewrite sumn_S. cbn [accepted_sum]. unfold accepts at 1. cbn [nth].
    rewrite <- (IH us) by congruence. change (accepts xs us) with (fun i => accepts (x :: xs) (u :: us) (S i)). destruct (Rlt_dec u (a x)); ring.
  Qed.
End Law.

Section Choice.
  Variables (choose : nat -> list nat -> option (list nat)) (K draws N : nat) (ar share : R) (P : nat -> R).
  Hypothesis HK : fair_choice choose K draws N.
  Hypothesis Hd : (0 < draws)%nat.
  Let a x := P x / ar.

  Lemma weights_eq xs us k : weights choose draws ar share P xs us k =
    match choose k (filter (accepts a xs us) (seq 0 (List.length xs))) with
    | None => None
    | Some sampled => Some (fun i => if existsb (Nat.eqb i) sampled then share / P (nth i xs O) / INR draws else 0)
    end.
  Proof using.
    unfold weights, market_weights, given_uniform, given_choice. cbn [fst snd]. unfold accepts, a.
    destruct (choose k _); reflexivity.
  Qed.

  Lemma NoDup_accepted xs us : NoDup (filter (accepts a xs us) (seq 0 (List.length xs))).
  Proof using. apply NoDup_filter, seq_NoDup. Qed.

  Lemma length_accepted xs us : (List.length (filter (accepts a xs us) (seq 0 (List.length xs))) <= List.length xs)%nat.
  Proof using.
    clear HK Hd. set (t := accepts a xs us). rewrite <- (seq_length (List.length xs) 0) at 2. induction (seq 0 (List.length xs)) as [|i l IH]; cbn; [lia|].
    destruct (t i); cbn; lia.
  Qed.

  Lemma succeeds_eq xs us : List.length xs = List.length us -> List.length xs = N ->
    succeeds choose K draws ar share P xs us = if Nat.leb draws (accepted_count a xs us) then 1 else 0.
  Proof using HK Hd.
    intros E EN. destruct HK as [K0 H].
    destruct (H _ (NoDup_accepted xs us) ltac:(rewrite <- EN; apply length_accepted)) as [H1 H2]. rewrite (accepted_length a xs us E) in H1, H2.
    assert (K1 : INR K <> 0) by (apply not_0_INR; lia). unfold succeeds.
    destruct (Nat.leb_spec draws (accepted_count a xs us)) as [L|L].
    - destruct (H2 L) as (sampled & S1 & _).
      rewrite (sumn_ext K _ (fun _ => 1)). 2: { intros k Hk. rewrite weights_eq. destruct (S1 k Hk) as [-> _]. reflexivity. }
      rewrite sumn_const. field. exact K1.
    - rewrite (sumn_ext K _ (fun _ => 0)). 2: { intros k Hk. rewrite weights_eq, (H1 L k Hk). reflexivity. }
      rewrite sumn_const. field. exact K1.
  Qed.

  Lemma weighted_sum_eq h xs us : List.length xs = List.length us -> List.length xs = N ->
    weighted_sum choose K draws ar share P h xs us =
    (if Nat.leb draws (accepted_count a xs us) then share / INR (accepted_count a xs us) else 0) * accepted_sum a (fun x => h x / P x) xs us.
  Proof using HK Hd.
    intros E EN. destruct HK as [K0 H].
    destruct (H _ (NoDup_accepted xs us) ltac:(rewrite <- EN; apply length_accepted)) as [H1 H2]. rewrite (accepted_length a xs us E) in H1, H2.
    assert (K1 : INR K <> 0) by (apply not_0_INR; lia). assert (D1 : INR draws <> 0) by (apply not_0_INR; lia). unfold weighted_sum.
    destruct (Nat.leb_spec draws (accepted_count a xs us)) as [L|L].
    - destruct (H2 L) as (sampled & S1 & S2). assert (M1 : INR (accepted_count a xs us) <> 0) by (apply not_0_INR; lia).
      rewrite (sumn_ext K _ (fun k => sumn (List.length xs) (fun i => (if existsb (Nat.eqb i) (sampled k) then 1 else 0) * (share / P (nth i xs O) / INR draws * h (nth i xs O))))).
      2: { intros k Hk. rewrite weights_eq. destruct (S1 k Hk) as [-> _]. apply sumn_ext. intros i _. destruct (existsb _ _); ring. }
      rewrite sumn_swap.
      rewrite (sumn_ext (List.length xs) _ (fun i => INR K * share / INR (accepted_count a xs us) * (if accepts a xs us i then h (nth i xs O) / P (nth i xs O) else 0))).
      2: { intros i Hi. rewrite (sumn_ext K _ (fun k => (share / P (nth i xs O) / INR draws * h (nth i xs O)) * (if existsb (Nat.eqb i) (sampled k) then 1 else 0))) by (intros; ring).
           rewrite sumn_scal. destruct (accepts a xs us i) eqn:A.
           - rewrite S2 by (apply filter_In; split; [apply in_seq; lia|exact A]). unfold Rdiv. set (q := / P (nth i xs O)). field. auto.
           - rewrite (sumn_ext K _ (fun _ => 0)). 2: { intros k Hk. destruct (existsb _ _) eqn:X; [|reflexivity]. exfalso.
               apply existsb_exists in X. destruct X as (j & J1 & J2). apply Nat.eqb_eq in J2. subst j.
               destruct (S1 k Hk) as [_ I]. apply I, filter_In in J1. destruct J1. congruence. }
             rewrite sumn_const. ring. }
      rewrite sumn_scal, (accepted_sumn a (fun x => h x / P x) xs us E). field. auto.
    - rewrite (sumn_ext K _ (fun _ => 0)). 2: { intros k Hk. rewrite weights_eq, (H1 L k Hk). reflexivity. }
      rewrite sumn_const. field. exact K1.
  Qed.
End Choice.

Lemma importance_unbiased n f P U ar share choose K draws h N :
  uniform_law (fun c => exists x, (x < n)%nat /\ c = P x / ar) U -> fair_choice choose K draws N -> (0 < draws)%nat ->
  1 <= ar -> (forall x, (x < n)%nat -> 0 < P x) -> 0 < population_mean n f P ->
  candidates_mean U n f N (weighted_sum choose K draws ar share P h) =
  share * population_mean n f h / population_mean n f P * candidates_mean U n f N (succeeds choose K draws ar share P).
Proof.
  intros HU HK Hd Har HP Hm. set (a := fun x => P x / ar).
  assert (Ha : forall x, (x < n)%nat -> exists y, (y < n)%nat /\ a x = P y / ar) by (intros x Hx; exists x; split; [exact Hx|reflexivity]).
  set (c := fun m => if Nat.leb draws m then share / INR m else 0).
  rewrite (CM_ext U n f N _ (fun xs us => c (accepted_count a xs us) * accepted_sum a (fun x => h x / P x) xs us)).
  2: { intros xs us H1 H2. apply (weighted_sum_eq choose K draws N ar share P HK Hd h xs us); congruence. }
  rewrite (fun E => accepted_ratio _ U n f HU a Ha (population_mean n f h / population_mean n f P) (fun x => h x / P x) E N c).
  - replace (share * population_mean n f h / population_mean n f P) with (population_mean n f h / population_mean n f P * share) by (field; lra).
    rewrite Rmult_assoc. f_equal. rewrite <- (CM_scale _ U n f HU). apply CM_ext. intros xs us H1 H2.
    rewrite (succeeds_eq choose K draws N ar share P HK Hd xs us) by congruence. rewrite accepted_ones. fold a. unfold c.
    destruct (Nat.leb_spec draws (accepted_count a xs us)) as [L|L]; [|ring]. field. apply not_0_INR. lia.
  - unfold population_mean, a.
    rewrite (sumn_ext n (fun x => f x * (P x / ar) * (h x / P x)) (fun x => / ar * (f x * h x))) by (intros x Hx; specialize (HP x Hx); field; lra).
    rewrite (sumn_ext n (fun x => f x * (P x / ar)) (fun x => / ar * (f x * P x))) by (intros x Hx; field; lra).
    rewrite !sumn_scal. field. unfold population_mean in Hm. lra.
Qed.
