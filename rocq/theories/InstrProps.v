(** Theorems about instruments of problems, of problems with optimal instruments, and of simulated problems. *)
From Coq Require Import Reals Lra Lia List Bool Arith ZArith Ascii String Sorted.
From Verif Require Import FltModel FormModel ParamsModel ParamsSpec ParamsProofs BasicsModel BasicsSpec BasicsProofs ConstrModel ConstrSpec ConstrProofs
  InstrModel InstrSpec InstrProofs.
Import ListNotations.
Local Open Scope string_scope.
Local Open Scope list_scope.

(* ---------- C108: characteristics and instruments of problems ---------- *)

(** Which formulations are accepted. *)
Theorem C108_accepted X1 X2 X3 d is_finite demand supply covariance instruments add_exogenous :
  (exists p, products X1 X2 X3 d is_finite demand supply covariance instruments add_exogenous = inr p) <->
  exists f1, X1 = Some f1 /\ (forall f2, X2 = Some f2 -> absorbs f2 = false) /\
    without "shares" (columns f1 ++ columns_of X2) /\
    (exists e, In e (columns f1 ++ columns_of X2) /\ In "prices" (free e)) /\
    without "prices" (columns_of X3) /\
    (forall e, In e (columns f1 ++ columns_of X2 ++ columns_of X3) -> is_finite (column_of d e) = true) /\
    (instruments = true -> forall c, In c (all_columns demand) -> is_finite c = true) /\
    (instruments = true -> X3 <> None -> forall c, In c (all_columns supply ++ all_columns covariance) -> is_finite c = true) /\
    (forall e s, In e (columns f1 ++ columns_of X2 ++ columns_of X3) -> In s (free e) -> In s reserved -> s = "shares").
Proof.
  split.
  - intros [p H]. apply accepted_iff in H. destruct H as [f1 [[A1 A2 A3 A4 A5 A6 A7 A8 A9] _]]. exists f1. auto 12.
  - intros [f1 [A1 [A2 [A3 [A4 [A5 [A6 [A7 [A8 A9]]]]]]]]]. eexists. apply accepted_iff. exists f1. split; [constructor; assumption|reflexivity].
Qed.
Print Assumptions C108_accepted.

(** Demand-side instruments are the excluded ones followed by exactly the columns of X1 without prices, in order. *)
Theorem C108_demand X1 X2 X3 d is_finite demand supply covariance p f1 :
  products X1 X2 X3 d is_finite demand supply covariance true true = inr p -> X1 = Some f1 ->
  exists l, positions (fun k => exists e, nth_error (columns f1) k = Some e /\ ~ In "prices" (free e)) l /\
    all_columns (ZD p) = all_columns demand ++ map (fun k => column_of d (nth k (columns f1) (Const 0))) l.
Proof. intros H E. exact (products_ZD X1 X2 X3 is_finite demand supply covariance true true d p f1 H E eq_refl eq_refl). Qed.
Print Assumptions C108_demand.

(** Supply-side instruments are the excluded ones followed by exactly the columns of X3 without shares, in order. *)
Theorem C108_supply X1 X2 X3 d is_finite demand supply covariance p f3 :
  products X1 X2 X3 d is_finite demand supply covariance true true = inr p -> X3 = Some f3 ->
  exists l, positions (fun k => exists e, nth_error (columns f3) k = Some e /\ ~ In "shares" (free e)) l /\
    all_columns (ZS p) = all_columns supply ++ map (fun k => column_of d (nth k (columns f3) (Const 0))) l.
Proof. intros H E. exact (products_ZS X1 X2 X3 is_finite demand supply covariance true true d p f3 H E eq_refl eq_refl). Qed.
Print Assumptions C108_supply.

(** Only what was given: without exogenous characteristics, or without instruments, nothing is added. *)
Theorem C108_nothing_added X1 X2 X3 d is_finite demand supply covariance instruments p :
  products X1 X2 X3 d is_finite demand supply covariance instruments false = inr p ->
  ZD p = (if instruments then demand else None) /\
  ZS p = (if instruments then match X3 with Some _ => supply | None => None end else None) /\
  ZC p = (if instruments then match X3 with Some _ => covariance | None => None end else None).
Proof.
  intros H. apply accepted_iff in H. destruct H as [f1 [_ ->]]. cbn [ZD ZS ZC]. unfold ZD_of, ZS_of, ZC_of.
  destruct instruments, X3; auto.
Qed.
Print Assumptions C108_nothing_added.

(** Instruments do not depend on outcomes: with other prices and market shares they are the same. *)
Theorem C108_exogenous X1 X2 X3 d is_finite demand supply covariance instruments add_exogenous prices shares p p' :
  products X1 X2 X3 d is_finite demand supply covariance instruments add_exogenous = inr p ->
  products X1 X2 X3 (other_outcome d prices shares) is_finite demand supply covariance instruments add_exogenous = inr p' ->
  p' = p.
Proof. exact (products_outcome X1 X2 X3 is_finite demand supply covariance instruments add_exogenous d prices shares p p'). Qed.
Print Assumptions C108_exogenous.

Definition example_data : dataset := fun n s =>
  if String.eqb s "prices" then INR (S n) else if String.eqb s "shares" then (/ INR (n + 4))%R else INR (n * n).
Definition example_X1 : formula := Formula [Const 1; Mul (Sym "x") (Sym "prices"); Sym "x"] false.
Definition example_X3 : formula := Formula [Sym "w"; Log (Sym "shares")] false.
Example C108_applies : exists p,
  products (Some example_X1) None (Some example_X3) example_data (fun _ => true) None (Some [fun _ => Some 3%R]) None true true = inr p /\
  List.length (all_columns (ZD p)) = 2 /\ List.length (all_columns (ZS p)) = 2 /\
  (exists p', products (Some example_X1) None (Some example_X3) (other_outcome example_data (fun _ => 7%R) (fun _ => (1 / 9)%R)) (fun _ => true)
    None (Some [fun _ => Some 3%R]) None true true = inr p').
Proof. eexists. split; [reflexivity|]. split; [reflexivity|]. split; [reflexivity|]. eexists. reflexivity. Qed.

(* ---------- C109: problems with optimal instruments ---------- *)

(** Demand-side instruments do not depend on outcomes. *)
Theorem C109_demand X1 X3 d ps demand_instruments expected_prices supply_shifters prices shares : without "shares" X1 ->
  optimal_ZD X1 X3 (other_outcome d prices shares) ps demand_instruments expected_prices supply_shifters =
  optimal_ZD X1 X3 d ps demand_instruments expected_prices supply_shifters.
Proof. exact (optimal_ZD_outcome X1 X3 d ps demand_instruments expected_prices supply_shifters prices shares). Qed.
Print Assumptions C109_demand.

(** Nor do supply-side instruments if no supply-side characteristic involves shares. *)
Theorem C109_supply X1 X3 d ps supply_instruments expected_shares demand_shifters prices shares : without "prices" X3 -> without "shares" X3 ->
  optimal_ZS X1 X3 (other_outcome d prices shares) ps supply_instruments expected_shares demand_shifters =
  optimal_ZS X1 X3 d ps supply_instruments expected_shares demand_shifters.
Proof. exact (optimal_ZS_outcome X1 X3 d ps supply_instruments expected_shares demand_shifters prices shares). Qed.
Print Assumptions C109_supply.

(** Without a supply side and without shifters there is an instrument for each parameter in theta and for each one that is concentrated out.
    In addition there is one for each coefficient that is fixed although its characteristic is exogenous. *)
Theorem C109_number values shapes bv bounded nans ps X1 d demand_instruments expected_prices K2 n :
  initialize values shapes bv bounded nans = Some ps -> shapes Sigma = [(K2, K2)] -> shapes Beta = [(List.length X1, 1)] -> shapes Gamma = [(0, 1)] ->
  without "shares" X1 -> List.length demand_instruments = List.length (unfixed ps) ->
  counts (fun k => exists e, nth_error X1 k = Some e /\ ~ In "prices" (free e) /\ In (Beta, (k, 0)) (fixed ps)) (seq 0 (List.length X1)) n ->
  List.length (optimal_ZD X1 [] d ps demand_instruments expected_prices []) = List.length (unfixed ps) + List.length (eliminated ps) + n.
Proof.
  intros I S B G W L C. destruct (initialize_spec _ _ _ _ _ _ I) as [[lo [up [ini _]]] [Sq [Sh _]]].
  destruct (Sq _ S) as [Q1 Q2].
  assert (HB := Sh Beta). rewrite B in HB. destruct HB as [HB|[]]; [discriminate|]. injection HB as R1 R2.
  assert (HG := Sh Gamma). rewrite G in HG. destruct HG as [HG|[]]; [discriminate|]. injection HG as G1 G2.
  refine (count_ZD X1 d ps demand_instruments expected_prices _ _ lo up ini _ _ _ _ W n L C); congruence.
Qed.
Print Assumptions C109_number.

(** With a characteristic that involves shares, that characteristic is one of the instruments for it: shares are endogenous. *)
Theorem C109_supply_refuted : exists X1 X3 d ps supply_instruments expected_shares demand_shifters prices shares e,
  (exists p, products (Some (Formula X1 false)) None (Some (Formula X3 false)) d (fun _ => true) None None None true true = inr p) /\
  In e X3 /\ In "shares" (free e) /\ In (column_of d e) (optimal_ZS X1 X3 d ps supply_instruments expected_shares demand_shifters) /\
  optimal_ZS X1 X3 (other_outcome d prices shares) ps supply_instruments expected_shares demand_shifters <>
  optimal_ZS X1 X3 d ps supply_instruments expected_shares demand_shifters.
Proof.
  set (ps := {| mat := fun _ => {| nrows := 0; ncols := 0; entry := fun _ _ => NaN |}; lower := fun _ _ _ => NaN; upper := fun _ _ _ => NaN;
                eliminated_index := fun _ _ _ => false; fixed := []; unfixed := []; eliminated := [] |}).
  exists [Sym "prices"], [Sym "shares"], example_data, ps, [], (fun _ => 0%R), [], (fun _ => 0%R), (fun _ => 1%R), (Sym "shares").
  split; [eexists; reflexivity|]. split; [left; reflexivity|]. split; [left; reflexivity|].
  unfold optimal_ZS, optimal_supply, keep, eliminated_endogenous. cbn [ps unfixed combine filter map seq List.length fst snd eliminated_index andb app].
  split; [left; reflexivity|]. intro H. injection H as H. apply (f_equal (fun c => c 0)) in H.
  unfold column_of in H. cbn [evaluate other_outcome example_data String.eqb Ascii.eqb Bool.eqb] in H. injection H as H.
  cbn in H. lra.
Qed.
Print Assumptions C109_supply_refuted.

Definition optimal_values (k : kind) : option ParamsModel.matrix :=
  match k with
  | Sigma => Some {| nrows := 1; ncols := 1; entry := fun _ _ => Num 1 |}
  | Beta => Some {| nrows := 3; ncols := 1; entry := fun i _ => match i with 0 => NaN | 1 => Num 4 | _ => Num 0 end |}
  | _ => None
  end.
Definition optimal_shapes (k : kind) : list (nat * nat) :=
  match k with Sigma => [(1, 1)] | Beta => [(3, 1)] | Gamma => [(0, 1)] | Pi => [(1, 0)] | Rho => [(0, 1)] | Phi => [(0, 0)] end.
Ltac decide_reals :=
  repeat match goal with
  | |- context [rltb ?a ?b] => let H := fresh in
      first [assert (H : rltb a b = true) by (unfold rltb; destruct (Rlt_dec a b); [reflexivity|lra])
            |assert (H : rltb a b = false) by (unfold rltb; destruct (Rlt_dec a b); [lra|reflexivity])]; rewrite !H; clear H
  | |- context [reqb ?a ?b] => let H := fresh in
      first [assert (H : reqb a b = true) by (unfold reqb; destruct (Req_EM_T a b); [reflexivity|lra])
            |assert (H : reqb a b = false) by (unfold reqb; destruct (Req_EM_T a b); [lra|reflexivity])]; rewrite !H; clear H
  end.
Lemma optimal_accepted : exists ps, initialize optimal_values optimal_shapes (fun _ => None) true true = Some ps /\
  unfixed ps = [(Sigma, (0, 0)); (Beta, (1, 0))] /\ fixed ps = [(Beta, (2, 0))] /\ eliminated ps = [(Beta, (0, 0))].
Proof.
  unfold initialize, validated_bounds, validated, initialize_matrix.
  cbn -[rltb reqb Rdiv IZR finish]. eexists. split; [reflexivity|].
  match goal with |- context [finish _ _ _ ?bounds] => set (b := bounds) end.
  assert (V : feqb (fst (b Sigma) 0 0) (snd (b Sigma) 0 0) = false /\ feqb (fst (b Beta) 1 0) (snd (b Beta) 1 0) = false /\
    feqb (fst (b Beta) 2 0) (snd (b Beta) 2 0) = true).
  { unfold b. repeat split; cbn -[rltb reqb Rdiv IZR]; decide_reals; cbn -[rltb reqb Rdiv IZR]; decide_reals; reflexivity. }
  clearbody b. destruct V as [V1 [V2 V3]].
  unfold finish. cbn -[feqb IZR default_lower default_upper]. repeat (rewrite ?V1, ?V2, ?V3; cbn -[feqb IZR default_lower default_upper]). auto.
Qed.
(** A constant whose coefficient is concentrated out, prices, and a characteristic whose coefficient is fixed at zero: four instruments. *)
Example C109_applies : exists ps, initialize optimal_values optimal_shapes (fun _ => None) true true = Some ps /\
  without "shares" (columns example_X1) /\ optimal_shapes Beta = [(List.length (columns example_X1), 1)] /\
  counts (fun k => exists e, nth_error (columns example_X1) k = Some e /\ ~ In "prices" (free e) /\ In (Beta, (k, 0)) (fixed ps))
    (seq 0 (List.length (columns example_X1))) 1 /\
  List.length (optimal_ZD (columns example_X1) [] example_data ps [fun _ => Some 1%R; fun _ => Some 2%R] (fun _ => 5%R) []) = 4.
Proof.
  destruct optimal_accepted as [ps [H [U [F E]]]]. exists ps. split; [exact H|].
  assert (W : without "shares" (columns example_X1)).
  { intros e He Hs. cbn in He. repeat (destruct He as [<-|He]; [cbn in Hs; intuition discriminate|]). destruct He. }
  assert (C : counts (fun k => exists e, nth_error (columns example_X1) k = Some e /\ ~ In "prices" (free e) /\ In (Beta, (k, 0)) (fixed ps))
    (seq 0 (List.length (columns example_X1))) 1).
  { exists [2]. split; [repeat constructor; intros []|]. split; [reflexivity|]. intro k. rewrite F. split.
    - intros [<-|[]]. split; [cbn; auto|]. exists (Sym "x"). split; [reflexivity|]. split; [cbn; intuition discriminate|left; reflexivity].
    - intros [_ [e [_ [_ [K|[]]]]]]. injection K as <-. left. reflexivity. }
  split; [exact W|]. split; [reflexivity|]. split; [exact C|].
  rewrite (C109_number _ _ _ _ _ _ (columns example_X1) example_data [fun _ => Some 1%R; fun _ => Some 2%R] (fun _ => 5%R) 1 1 H); try reflexivity;
    [rewrite U, E; reflexivity|exact W|rewrite U; reflexivity|exact C].
Qed.
Example C109_supply_applies : without "prices" [Sym "w"; Sym "x"] /\ without "shares" [Sym "w"; Sym "x"].
Proof. split; intros e He Hs; cbn in He; repeat (destruct He as [<-|He]; [cbn in Hs; intuition discriminate|]); destruct He. Qed.

(* ---------- C110: default instruments of simulated problems ---------- *)

(** Default instruments are sums over other products of the firm and over rivals' products of exogenous variables and, if numbers of products
    differ, of a constant, unless these are constant; and variables of only the other side. *)
Theorem C110_demand market_ids firm_ids market_sort paired_sort X1 X3 K3 d z : List.length market_ids = List.length firm_ids ->
  is_argsort market_ids market_sort -> is_argsort (interact_ids market_ids firm_ids) paired_sort ->
  ((exists z', In z' (fst (default_instruments market_ids firm_ids market_sort paired_sort X1 X3 K3 d)) /\ agrees (List.length market_ids) z z') <->
   default_instrument market_ids firm_ids d "prices" "shares" X1 X3 z).
Proof. intros L M P. exact (default_demand market_ids firm_ids market_sort paired_sort X1 X3 K3 L M P d z). Qed.
Print Assumptions C110_demand.
Theorem C110_supply market_ids firm_ids market_sort paired_sort X1 X3 K3 d z : List.length market_ids = List.length firm_ids ->
  is_argsort market_ids market_sort -> is_argsort (interact_ids market_ids firm_ids) paired_sort -> 0 < K3 ->
  ((exists z', In z' (snd (default_instruments market_ids firm_ids market_sort paired_sort X1 X3 K3 d)) /\ agrees (List.length market_ids) z z') <->
   default_instrument market_ids firm_ids d "shares" "prices" X3 X1 z).
Proof. intros L M P K. exact (default_supply market_ids firm_ids market_sort paired_sort X1 X3 K3 L M P d z K). Qed.
Print Assumptions C110_supply.

(** They do not depend on outcomes. *)
Theorem C110_exogenous market_ids firm_ids market_sort paired_sort X1 X3 K3 d prices shares : without "shares" X1 -> without "prices" X3 ->
  default_instruments market_ids firm_ids market_sort paired_sort X1 X3 K3 (other_outcome d prices shares) =
  default_instruments market_ids firm_ids market_sort paired_sort X1 X3 K3 d.
Proof.
  intros W V. apply default_same. intros s n H. unfold other_outcome.
  destruct (String.eqb s "prices") eqn:E; [apply String.eqb_eq in E; subst s|destruct (String.eqb s "shares") eqn:F; [apply String.eqb_eq in F; subst s|reflexivity]];
    exfalso; destruct H as [H|H]; apply exogenous_in in H; destruct H as [[e [He Hs]] Ne]; try (apply Ne; reflexivity); [exact (V e He Hs)|exact (W e He Hs)].
Qed.
Print Assumptions C110_exogenous.

(** A simulated problem's default instruments are those of its own data if what was simulated is prices and shares. *)
Theorem C110_own_data market_ids firm_ids market_sort paired_sort X1 X3 K3 d prices shares : without "shares" X1 -> without "prices" X3 ->
  let problem := simulated_problem market_ids firm_ids market_sort paired_sort X1 X3 K3 d [("prices", prices); ("shares", shares)] in
  snd problem = default_instruments market_ids firm_ids market_sort paired_sort X1 X3 K3 (fst problem).
Proof.
  intros W V. apply default_overrides; intros s e Hs He Hf; cbn in Hs; destruct Hs as [<-|[<-|[]]]; try reflexivity; exfalso;
    [exact (W e He Hf)|exact (V e He Hf)].
Qed.
Print Assumptions C110_own_data.

(** They are not if an exogenous characteristic was replaced: its variation is missing. *)
Theorem C110_replaced_refuted : exists market_ids firm_ids market_sort paired_sort X1 X3 K3 d s values z,
  List.length market_ids = List.length firm_ids /\ is_argsort market_ids market_sort /\ is_argsort (interact_ids market_ids firm_ids) paired_sort /\
  without "shares" X1 /\ s <> "prices" /\ uses X1 s /\
  let problem := simulated_problem market_ids firm_ids market_sort paired_sort X1 X3 K3 d [(s, values)] in
  default_instrument market_ids firm_ids (fst problem) "prices" "shares" X1 X3 z /\
  ~ (exists z', In z' (fst (snd problem)) /\ agrees (List.length market_ids) z z').
Proof.
  exists [0%Z; 0%Z], [0%Z; 1%Z], (stable_argsort [0%Z; 0%Z]), (stable_argsort (interact_ids [0%Z; 0%Z] [0%Z; 1%Z])), [Sym "prices"; Sym "x"], [], 0,
    (fun _ _ => 0%R), "x", INR, (fun n => if Nat.eqb n 0 then 1%R else 0%R).
  assert (A1 : is_argsort [0%Z; 0%Z] (stable_argsort [0%Z; 0%Z])) by apply stable_is_argsort, stable_argsort_correct.
  assert (A2 : is_argsort (interact_ids [0%Z; 0%Z] [0%Z; 1%Z]) (stable_argsort (interact_ids [0%Z; 0%Z] [0%Z; 1%Z]))) by apply stable_is_argsort, stable_argsort_correct.
  split; [reflexivity|]. split; [exact A1|]. split; [exact A2|].
  split; [intros e He Hs; cbn in He; repeat (destruct He as [<-|He]; [cbn in Hs; intuition discriminate|]); destruct He|].
  split; [discriminate|]. split; [exists (Sym "x"); cbn; auto|]. cbv zeta. split.
  - left. split; [exists 1; cbn; split; [lia|lra]|]. exists INR. split.
    + right. exists "x". split; [exists (Sym "x"); cbn; auto|]. split; [discriminate|]. intro n. reflexivity.
    + right. intros n Hn. cbn in Hn. destruct n as [|[|n]]; [cbn; lra|cbn; lra|lia].
  - cbn [simulated_problem snd]. rewrite (C110_demand [0%Z; 0%Z] [0%Z; 1%Z] _ _ _ _ _ _ _ eq_refl A1 A2). intros [[[n [Hn C]] [x [S [O|O]]]]|[s [[e [[] _]] _]]].
    + apply C. rewrite (O n Hn), (O 0) by (cbn; lia). destruct n as [|[|n]]; [reflexivity|cbn; lra|cbn in Hn; lia].
    + assert (T := O 0 ltac:(cbn; lia)). cbn in T. destruct S as [[[t [u [Ht [Hu Ne]]]] _]|[s [_ [_ Z]]]].
      * apply Ne. cbn in Ht, Hu. destruct Ht as [<-|[<-|[]]], Hu as [<-|[<-|[]]]; reflexivity.
      * rewrite (Z 1) in T. lra.
Qed.
Print Assumptions C110_replaced_refuted.

(** Three firms in a market and two in another: rival products differ in number. *)
Example C110_applies : let ids := [0%Z; 0%Z; 0%Z; 1%Z; 1%Z] in let fids := [0%Z; 1%Z; 2%Z; 0%Z; 1%Z] in
  List.length ids = List.length fids /\ is_argsort ids (stable_argsort ids) /\ is_argsort (interact_ids ids fids) (stable_argsort (interact_ids ids fids)) /\
  without "shares" [Sym "prices"; Sym "x"] /\ without "prices" [Sym "w"; Sym "shares"] /\
  default_instrument ids fids example_data "prices" "shares" [Sym "prices"; Sym "x"] [Sym "w"; Sym "shares"] (fun n => if Nat.ltb n 3 then 2%R else 1%R) /\
  default_instrument ids fids example_data "prices" "shares" [Sym "prices"; Sym "x"] [Sym "w"; Sym "shares"] (fun n => example_data n "w").
Proof.
  cbv zeta. split; [reflexivity|]. split; [apply stable_is_argsort, stable_argsort_correct|]. split; [apply stable_is_argsort, stable_argsort_correct|].
  split; [intros e He Hs; cbn in He; repeat (destruct He as [<-|He]; [cbn in Hs; intuition discriminate|]); destruct He|].
  split; [intros e He Hs; cbn in He; repeat (destruct He as [<-|He]; [cbn in Hs; intuition discriminate|]); destruct He|]. split.
  - left. split; [exists 3; cbn; split; [lia|lra]|]. exists (fun _ => 1%R). split.
    + left. split; [exists 0%Z, 1%Z; cbn; repeat split; auto; lia|reflexivity].
    + right. intros n Hn. cbn in Hn. do 5 (destruct n as [|n]; [cbn; lra|]). lia.
  - right. exists "w". split; [exists (Sym "w"); cbn; auto|]. split; [discriminate|]. split; [|intros n Hn; reflexivity].
    intros [[e [He Hs]] _]. cbn in He. repeat (destruct He as [<-|He]; [cbn in Hs; intuition discriminate|]). destruct He.
Qed.
