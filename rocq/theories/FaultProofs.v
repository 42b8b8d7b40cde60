(** Proofs about the detection of numerical errors. *)
From Coq Require Import List Arith Bool Lia QArith.
From Verif Require Import FaultModel FaultSpec.
Import ListNotations.
Open Scope nat_scope.

Section Induction.
  Variable P : code -> Prop.
  Hypothesis raise_case : forall k m, P (Raise k m).
  Hypothesis ignoring_case : forall ks body, Forall P body -> P (Ignoring ks body).
  Hypothesis call_case : forall class body, Forall P body -> P (Call class body).
  Hypothesis append_case : forall e, P (Append e).
  Fixpoint code_induction (c : code) : P c :=
    match c with
    | Raise k m => raise_case k m
    | Ignoring ks body => ignoring_case ks body
        ((fix all (l : list code) : Forall P l := match l with [] => Forall_nil P | c :: l' => Forall_cons c (code_induction c) (all l') end) body)
    | Call class body => call_case class body
        ((fix all (l : list code) : Forall P l := match l with [] => Forall_nil P | c :: l' => Forall_cons c (code_induction c) (all l') end) body)
    | Append e => append_case e
    end.
End Induction.

Lemma run_ignoring r ks body st errors : run r (Ignoring ks body) st errors =
  let (st', errors') := run_all r body (with_modes st (without (calls st) ks)) errors in (leave r st st', errors').
Proof. reflexivity. Qed.
Lemma run_call r class body st errors : run r (Call class body) st errors =
  let (st', inner) := run_all r body (enter st class) [] in
  (leave r st st', errors ++ match detected st' (created st) with Some _ => inner ++ [FromDetector (created st)] | None => inner end).
Proof. reflexivity. Qed.

(** Messages are added to what was detected. *)
Definition add (o : option (list nat)) (l : list nat) : option (list nat) :=
  match l with [] => o | _ => Some (match o with Some f => f | None => [] end ++ l) end.
Lemma add_add o l1 l2 : add (add o l1) l2 = add o (l1 ++ l2).
Proof.
  destruct l1 as [|a l1]; [reflexivity|]. destruct l2 as [|b l2]; [rewrite app_nil_r; reflexivity|].
  cbn [add app]. f_equal. rewrite <- app_assoc. reflexivity.
Qed.
Lemma messages_app l1 l2 : messages (l1 ++ l2) = messages l1 ++ messages l2.
Proof. unfold messages. apply flat_map_app. Qed.

Lemma settled_events_nested l1 l2 : settled_events (l1 ++ l2) -> In Nested l1 -> messages l2 = [].
Proof.
  intros S I. destruct (in_split _ _ I) as [a [b ->]]. specialize (S a (b ++ l2)). rewrite <- app_assoc in S. specialize (S eq_refl).
  rewrite messages_app in S. apply app_eq_nil in S. apply S.
Qed.
Lemma settled_events_l l1 l2 : settled_events (l1 ++ l2) -> settled_events l1.
Proof.
  intros S a b E. specialize (S a (b ++ l2)). rewrite E, <- app_assoc in S. specialize (S eq_refl).
  rewrite messages_app in S. apply app_eq_nil in S. apply S.
Qed.
Lemma settled_events_r l1 l2 : settled_events (l1 ++ l2) -> settled_events l2.
Proof. intros S a b E. apply (S (l1 ++ a) b). rewrite E, app_assoc. reflexivity. Qed.

(** What running code in a function with detector d does. *)
Definition effect (r : bool) (d : nat) (evs : list event) (exp : list error) (st st' : state) (errors errors' : list returned) : Prop :=
  (forall k, calls st' k = calls st k) /\
  (callback st' = callback st \/ (r = false /\ In Nested evs)) /\
  created st <= created st' /\
  (forall i, i < created st -> class_of st' i = class_of st i) /\
  (forall i, i < created st -> i <> d -> detected st' i = detected st i) /\
  detected st' d = add (detected st d) (messages evs) /\
  exists new, errors' = errors ++ new /\ map (look st') new = exp /\
    forall i, In (FromDetector i) new -> created st <= i < created st'.

Definition runs_well (r : bool) (c : code) : Prop := forall d ignored st errors,
  (forall k, calls st k = handler_modes k && negb (ignored k)) -> d < created st ->
  (r = true \/ settled_events (events ignored c) /\ settled_calls c) ->
  (callback st = Some d \/ messages (events ignored c) = []) ->
  let (st', errors') := run r c st errors in effect r d (events ignored c) (expected c) st st' errors errors'.

Definition settled_all (body : list code) : Prop := fold_right (fun c p => settled_calls c /\ p) True body.

Lemma look_same st st' new n : (forall i, In (FromDetector i) new -> i < n) ->
  (forall i, i < n -> class_of st' i = class_of st i) ->
  (forall i, In (FromDetector i) new -> detected st' i = detected st i) ->
  map (look st') new = map (look st) new.
Proof.
  intros I C D. apply map_ext_in. intros [i|e] H; [|reflexivity]. cbn [look]. rewrite C, D by auto. reflexivity.
Qed.

Lemma run_all_well r body : Forall (runs_well r) body -> forall d ignored st errors,
  (forall k, calls st k = handler_modes k && negb (ignored k)) -> d < created st ->
  (r = true \/ settled_events (flat_map (events ignored) body) /\ settled_all body) ->
  (callback st = Some d \/ messages (flat_map (events ignored) body) = []) ->
  let (st', errors') := run_all r body st errors in
  effect r d (flat_map (events ignored) body) (flat_map expected body) st st' errors errors'.
Proof.
  induction 1 as [|c body Hc _ IH]; intros d ignored st errors M D S B; cbn [run_all flat_map].
  - unfold effect. repeat split; auto. exists []. rewrite app_nil_r. repeat split; contradiction.
  - cbn [flat_map] in S, B. rewrite messages_app in B.
    specialize (Hc d ignored st errors M D).
    destruct (run r c st errors) as [st1 errors1]. destruct Hc as (M1 & B1 & L1 & C1 & O1 & D1 & new1 & E1 & X1 & I1).
    { destruct S as [S|[S1 S2]]; [left; exact S|right]. cbn [settled_all fold_right] in S2. split; [|apply S2].
      eapply settled_events_l; exact S1. }
    { destruct B as [B|B]; [left; exact B|right]. apply app_eq_nil in B. apply B. }
    specialize (IH d ignored st1 errors1).
    destruct (run_all r body st1 errors1) as [st2 errors2]. destruct IH as (M2 & B2 & L2 & C2 & O2 & D2 & new2 & E2 & X2 & I2).
    { intros k. rewrite M1. apply M. }
    { lia. }
    { destruct S as [S|[S1 S2]]; [left; exact S|right]. cbn [settled_all fold_right] in S2. split; [|apply S2].
      eapply settled_events_r; exact S1. }
    { destruct B1 as [B1|[R1 N1]].
      - rewrite B1. destruct B as [B|B]; [left; exact B|right]. apply app_eq_nil in B. apply B.
      - right. destruct S as [S|[S1 S2]]; [congruence|]. eapply settled_events_nested; eassumption. }
    unfold effect. split; [intros k; rewrite M2; apply M1|]. split.
    { destruct B2 as [B2|[R2 N2]]; [|right; split; [exact R2|apply in_or_app; right; exact N2]].
      destruct B1 as [B1|[R1 N1]]; [left; congruence|right; split; [exact R1|apply in_or_app; left; exact N1]]. }
    split; [lia|]. split; [intros i Hi; rewrite C2 by lia; apply C1; exact Hi|].
    split; [intros i Hi Hd; rewrite O2 by lia; apply O1; assumption|].
    split; [rewrite D2, D1, add_add, messages_app; reflexivity|].
    exists (new1 ++ new2). split; [rewrite E2, E1, app_assoc; reflexivity|]. split.
    + rewrite map_app, X2. f_equal. rewrite <- X1. apply look_same with (n := created st1).
      * intros i Hi. apply I1 in Hi. lia.
      * exact C2.
      * intros i Hi. apply I1 in Hi. apply O2; lia.
    + intros i Hi. apply in_app_or in Hi. destruct Hi as [Hi|Hi]; [apply I1 in Hi|apply I2 in Hi]; lia.
Qed.

Lemma update_same {A} (f : nat -> A) d a : update f d a d = a.
Proof. unfold update. rewrite Nat.eqb_refl. reflexivity. Qed.
Lemma update_other {A} (f : nat -> A) d a i : i <> d -> update f d a i = f i.
Proof. intros N. unfold update. apply Nat.eqb_neq in N. rewrite N. reflexivity. Qed.

Lemma own_event_error class body (st : state) d inner :
  detected st d = add None (messages (own_events body)) -> class_of st d = class ->
  map (look st) (match detected st d with Some _ => inner ++ [FromDetector d] | None => inner end) =
  map (look st) inner ++ own_error class body.
Proof.
  intros D C. unfold own_error. rewrite D. destruct (messages (own_events body)) as [|m l]; cbn [add app].
  - rewrite app_nil_r. reflexivity.
  - rewrite map_app. cbn [map look]. rewrite D, C. reflexivity.
Qed.

Lemma all_run_well r c : runs_well r c.
Proof.
  induction c as [k m|ks body IH|class body IH|e] using code_induction; intros d ignored st errors M D S B.
  - cbn [run]. unfold raise. rewrite M. cbn [events expected] in *. unfold effect.
    assert (N : detected st d = add (detected st d) (messages [])) by reflexivity.
    assert (T : exists new, errors = errors ++ new /\ map (look st) new = [] /\
                (forall i, In (FromDetector i) new -> created st <= i < created st)).
    { exists []. rewrite app_nil_r. repeat split; contradiction. }
    destruct k; cbn [handler_modes andb]; try (repeat split; auto; fail);
      (destruct (ignored _) eqn:G; cbn [negb]; [repeat split; auto|]);
      (destruct B as [B|B]; [rewrite B|discriminate B]); unfold detect; cbn [calls callback created class_of detected];
      (split; [reflexivity|split; [left; congruence|split; [lia|split; [reflexivity|split; [intros i Hi Hd; apply update_other; exact Hd|split;
        [rewrite update_same; cbn; destruct (detected st d); reflexivity|]]]]]]);
      exists []; rewrite app_nil_r; repeat split; contradiction.
  - rewrite run_ignoring. cbn [events expected] in *.
    assert (A := run_all_well r body IH d (fun k => ignored k || ks k) (with_modes st (without (calls st) ks)) errors).
    destruct (run_all r body _ errors) as [st1 errors1]. destruct A as (M1 & B1 & L1 & C1 & O1 & D1 & new & E & X & I).
    { intros k. cbn [with_modes calls]. unfold without. rewrite M, negb_orb, andb_assoc. reflexivity. }
    { exact D. }
    { destruct S as [S|[S1 S2]]; [left; exact S|right; split; [exact S1|exact S2]]. }
    { exact B. }
    unfold effect, leave, with_modes in *. cbn [calls callback created class_of detected] in *.
    split; [reflexivity|]. split; [destruct r; [left; reflexivity|exact B1]|].
    split; [exact L1|]. split; [exact C1|]. split; [exact O1|]. split; [exact D1|]. exists new. split; [exact E|].
    split; [|exact I]. rewrite <- X. apply map_ext. intros []; reflexivity.
  - rewrite run_call. cbn [events expected] in *.
    assert (A := run_all_well r body IH (created st) (fun _ => false) (enter st class) []).
    destruct (run_all r body _ []) as [st1 inner]. destruct A as (M1 & B1 & L1 & C1 & O1 & D1 & new & E & X & I).
    { intros k. cbn [enter calls negb]. rewrite andb_true_r. reflexivity. }
    { cbn [enter created]. lia. }
    { destruct S as [S|[S1 S2]]; [left; exact S|right]. cbn [settled_calls] in S2. exact S2. }
    { left. reflexivity. }
    cbn [enter calls callback created class_of detected app] in *. subst inner.
    rewrite update_same in D1. assert (CD : class_of st1 (created st) = class) by (rewrite C1 by lia; apply update_same).
    unfold effect, leave. cbn [calls callback created class_of detected].
    split; [reflexivity|]. split; [destruct r; [left; reflexivity|right; split; [reflexivity|left; reflexivity]]|].
    split; [lia|]. split; [intros i Hi; rewrite C1 by lia; apply update_other; lia|].
    split; [intros i Hi Hd; rewrite O1 by lia; apply update_other; lia|].
    split; [rewrite O1 by lia; cbn; apply update_other; lia|].
    eexists. split; [reflexivity|]. split.
    + rewrite <- X. rewrite <- (own_event_error class body st1 (created st) new D1 CD). apply map_ext. intros []; reflexivity.
    + intros i Hi. destruct (detected st1 (created st)).
      * apply in_app_or in Hi. destruct Hi as [Hi|[Hi|[]]]; [apply I in Hi; lia|injection Hi as Hi; lia].
      * apply I in Hi. lia.
  - cbn [run events expected]. unfold effect. repeat split; auto. exists [Other e]. repeat split; intros; cbn in *; intuition congruence.
Qed.

Lemma call_errors_expected r class body : r = true \/ settled_calls (Call class body) ->
  call_errors r class body = expected (Call class body).
Proof.
  intros S. unfold call_errors. rewrite run_call.
  assert (F : Forall (runs_well r) body) by (apply Forall_forall; intros c _; apply all_run_well).
  assert (A := run_all_well r body F 0 (fun _ => false) (enter initial class) []).
  destruct (run_all r body _ []) as [st1 inner]. destruct A as (M1 & B1 & L1 & C1 & O1 & D1 & new & E & X & I).
  { intros k. cbn [enter calls negb]. rewrite andb_true_r. reflexivity. }
  { cbn. lia. }
  { destruct S as [S|S]; [left; exact S|right; exact S]. }
  { left. reflexivity. }
  cbn [app created initial] in *. subst inner. cbn [expected]. rewrite <- X.
  rewrite <- (own_event_error class body st1 0 new).
  - apply map_ext. intros []; reflexivity.
  - exact D1.
  - rewrite C1 by (cbn; lia). reflexivity.
Qed.

(** Nothing is reported that was not raised. *)
Definition only_raised (r : bool) (c : code) : Prop := forall ignored st errors i l m,
  (forall k, calls st k = handler_modes k && negb (ignored k)) ->
  detected (fst (run r c st errors)) i = Some l -> In m l ->
  (exists l0, detected st i = Some l0 /\ In m l0) \/ raised ignored c m.
Lemma run_calls r c : forall st errors k, calls (fst (run r c st errors)) k = calls st k.
Proof.
  destruct c as [k m|ks body|class body|e]; intros st errors q.
  - cbn. unfold raise. destruct (calls st k); [destruct (callback st)|]; reflexivity.
  - rewrite run_ignoring. destruct (run_all _ _ _ _). reflexivity.
  - rewrite run_call. destruct (run_all _ _ _ _). reflexivity.
  - reflexivity.
Qed.
Lemma only_raised_all r body : Forall (only_raised r) body -> forall ignored st errors i l m,
  (forall k, calls st k = handler_modes k && negb (ignored k)) ->
  detected (fst (run_all r body st errors)) i = Some l -> In m l ->
  (exists l0, detected st i = Some l0 /\ In m l0) \/ fold_right (fun c p => raised ignored c m \/ p) False body.
Proof.
  induction 1 as [|c body Hc _ IH]; intros ignored st errors i l m M E I; cbn [run_all fold_right] in *.
  - left. exists l. split; assumption.
  - assert (Cc := run_calls r c st errors). specialize (Hc ignored st errors i).
    destruct (run r c st errors) as [st1 errors1]. cbn [fst] in *.
    destruct (IH ignored st1 errors1 i l m) as [(l0 & E0 & I0)|H].
    + intros k. rewrite Cc. apply M.
    + exact E.
    + exact I.
    + destruct (Hc l0 m M E0 I0) as [H|H]; [left; exact H|right; left; exact H].
    + right; right; exact H.
Qed.
Lemma all_only_raised r c : only_raised r c.
Proof.
  induction c as [k m|ks body IH|class body IH|e] using code_induction; intros ignored st errors i l m' M E I.
  - cbn [run fst] in E. unfold raise in E. rewrite M in E. cbn [raised].
    destruct (handler_modes k && negb (ignored k)) eqn:G; [|left; exists l; split; assumption].
    destruct (callback st) as [d|]; [|left; exists l; split; assumption].
    unfold detect in E. cbn [detected] in E. destruct (Nat.eq_dec i d) as [->|N].
    + rewrite update_same in E. injection E as <-. apply in_app_or in I. destruct I as [I|[<-|[]]].
      * left. destruct (detected st d) as [f|]; [exists f; split; [reflexivity|exact I]|contradiction].
      * right. split; [reflexivity|]. apply andb_prop in G. destruct G as [G1 G2]. split; [intros ->; discriminate G1|].
        apply negb_true_iff. exact G2.
    + rewrite update_other in E by exact N. left. exists l. split; assumption.
  - rewrite run_ignoring in E.
    assert (A := only_raised_all r body IH (fun k => ignored k || ks k) (with_modes st (without (calls st) ks)) errors i l m').
    destruct (run_all r body _ errors) as [st1 errors1]. cbn [fst leave detected] in *. apply A; [|exact E|exact I].
    intros k. cbn [with_modes calls]. unfold without. rewrite M, negb_orb, andb_assoc. reflexivity.
  - rewrite run_call in E. assert (A := only_raised_all r body IH (fun _ => false) (enter st class) [] i l m').
    destruct (run_all r body _ []) as [st1 inner]. cbn [fst leave detected] in *.
    destruct A as [(l0 & E0 & I0)|H].
    + intros k. cbn [enter calls negb]. rewrite andb_true_r. reflexivity.
    + exact E.
    + exact I.
    + left. cbn [enter detected] in E0. destruct (Nat.eq_dec i (created st)) as [->|N]; [rewrite update_same in E0; discriminate|].
      rewrite update_other in E0 by exact N. exists l0. split; assumption.
    + right. exact H.
  - left. exists l. split; assumption.
Qed.

Lemma reported_raised r class body m : reported (call_errors r class body) m -> raised (fun _ => false) (Call class body) m.
Proof.
  intros (cl & ms & I & Im). unfold call_errors in I. rewrite run_call in I.
  assert (F : Forall (only_raised r) body) by (apply Forall_forall; intros c _; apply all_only_raised).
  assert (A := fun i l => only_raised_all r body F (fun _ => false) (enter initial class) [] i l m).
  destruct (run_all r body _ []) as [st1 inner]. cbn [fst] in A.
  apply in_map_iff in I. destruct I as ([d|e] & E & _); [|discriminate E]. cbn [look leave class_of detected] in E.
  injection E as _ E. destruct (detected st1 d) as [l|] eqn:G; [|subst ms; contradiction]. subst l.
  destruct (A d ms) as [(l0 & E0 & I0)|H].
  - intros k. cbn [enter calls negb]. rewrite andb_true_r. reflexivity.
  - exact G.
  - exact Im.
  - cbn in E0. unfold update in E0. destruct (d =? 0); discriminate.
  - exact H.
Qed.

(** What is raised is among events of the function itself or expected to be reported by another one. *)
Lemma reported_app l1 l2 m : reported (l1 ++ l2) m <-> reported l1 m \/ reported l2 m.
Proof.
  split.
  - intros (c & ms & I & M). apply in_app_or in I. destruct I as [I|I]; [left|right]; exists c, ms; split; assumption.
  - intros [(c & ms & I & M)|(c & ms & I & M)]; exists c, ms; (split; [apply in_or_app; auto|exact M]).
Qed.
Definition accounted (c : code) : Prop := forall ignored m, raised ignored c m ->
  In m (messages (events ignored c)) \/ reported (expected c) m.
Lemma accounted_all body : Forall accounted body -> forall ignored m, fold_right (fun c p => raised ignored c m \/ p) False body ->
  In m (messages (flat_map (events ignored) body)) \/ reported (flat_map expected body) m.
Proof.
  induction 1 as [|c body Hc _ IH]; intros ignored m H; cbn [fold_right flat_map] in *; [contradiction|].
  rewrite messages_app, reported_app. destruct H as [H|H].
  - destruct (Hc _ _ H); [left; apply in_or_app; left; assumption|right; left; assumption].
  - destruct (IH _ _ H); [left; apply in_or_app; right; assumption|right; right; assumption].
Qed.
Lemma all_accounted c : accounted c.
Proof.
  induction c as [k m|ks body IH|class body IH|e] using code_induction; intros ignored m' H.
  - destruct H as (-> & N & G). left. destruct k; try congruence; cbn [events]; rewrite G; left; reflexivity.
  - exact (accounted_all body IH _ _ H).
  - right. cbn [expected]. rewrite reported_app. destruct (accounted_all body IH _ _ H) as [I|I]; [right|left; exact I].
    unfold own_error, own_events. destruct (messages _) as [|a l] eqn:E; [contradiction|]. exists class, (a :: l). split; [left; reflexivity|exact I].
  - contradiction.
Qed.
Lemma raised_expected class body m : raised (fun _ => false) (Call class body) m -> reported (expected (Call class body)) m.
Proof. intros H. destruct (all_accounted _ _ _ H) as [I|I]; [contradiction|exact I]. Qed.

(** Messages after a call go to the detector of the called function if callbacks are not restored. *)
Lemma no_nested_settled body : ~ In Nested (own_events body) -> settled_events (own_events body).
Proof. intros N a b E. exfalso. apply N. rewrite E. apply in_or_app. right. left. reflexivity. Qed.
Lemma taken class inner_class inner rest : ~ In Nested (own_events inner) -> settled_all inner ->
  ~ In Nested (own_events rest) -> settled_all rest ->
  call_errors false class (Call inner_class inner :: rest) =
  flat_map expected inner ++
  match messages (own_events inner) with [] => [] | l => [Numerical inner_class (l ++ messages (own_events rest))] end ++
  flat_map expected rest.
Proof.
  intros N1 S1 N2 S2. unfold call_errors. rewrite run_call. cbn [run_all].
  set (st := enter initial class). rewrite run_call.
  assert (F : forall l, Forall (runs_well false) l) by (intros l; apply Forall_forall; intros c _; apply all_run_well).
  assert (A := run_all_well false inner (F inner) (created st) (fun _ => false) (enter st inner_class) []).
  destruct (run_all false inner _ []) as [st1 new0] eqn:R. destruct A as (M1 & B1 & L1 & C1 & O1 & D1 & new & E1 & X & I).
  { intros q. cbn [enter calls negb]. rewrite andb_true_r. reflexivity. }
  { cbn. lia. }
  { right. split; [apply no_nested_settled; exact N1|exact S1]. }
  { left. reflexivity. }
  cbn [app] in E1. subst new0. destruct B1 as [B1|[_ B1]]; [|contradiction]. cbn [enter callback] in B1.
  assert (D1' : detected st1 1 = add None (messages (own_events inner))) by exact D1. clear D1.
  assert (C1' : class_of st1 1 = inner_class) by (rewrite C1 by (cbn; lia); reflexivity).
  assert (O0 : detected st1 0 = None) by (rewrite O1 by (cbn; lia); reflexivity).
  change (created st) with 1 in *. cbn [app].
  set (inner' := match detected st1 1 with Some _ => new ++ [FromDetector 1] | None => new end).
  assert (A := run_all_well false rest (F rest) 1 (fun _ => false) (leave false st st1) inner').
  destruct (run_all false rest _ inner') as [st2 errors2]. destruct A as (M2 & B2 & L2 & C2 & O2 & D2 & new2 & E2 & X2 & I2).
  { intros q. cbn [leave calls st enter negb]. rewrite andb_true_r. reflexivity. }
  { cbn [leave created]. cbn in L1. lia. }
  { right. split; [apply no_nested_settled; exact N2|exact S2]. }
  { left. exact B1. }
  cbn [leave calls callback created class_of detected] in M2, B2, L2, C2, O2, D2, I2. change (created initial) with 0. subst errors2.
  cbn in L1. rewrite O2 by lia. rewrite O0. rewrite map_app.
  assert (Q : forall l, map (look (leave false initial st2)) l = map (look st2) l) by (intros l; apply map_ext; intros []; reflexivity).
  rewrite (Q inner'), (Q new2), X2, app_assoc. f_equal.
  assert (Hnew : map (look st2) new = flat_map expected inner).
  { rewrite <- X. apply map_ext_in. intros [i|e] Hi; [|reflexivity]. apply I in Hi. cbn in Hi. cbn [look].
    rewrite C2, O2 by lia. reflexivity. }
  unfold inner'. rewrite D1'. rewrite D1' in D2. destruct (messages (own_events inner)) as [|a l] eqn:Em; cbn [add].
  - rewrite app_nil_r. exact Hnew.
  - rewrite map_app, Hnew. cbn [map look]. rewrite D2. fold (own_events rest). cbn [add app]. rewrite C2, C1' by lia.
    destruct (messages (own_events rest)) as [|b k]; cbn [add]; [rewrite app_nil_r|]; reflexivity.
Qed.

(** Markups. *)
Lemma divide_events n d : messages (own_events (divide_code n d)) <> [] <-> Qeq_bool d 0 = true.
Proof.
  unfold divide_code, own_events. destruct (Qeq_bool d 0), (Qeq_bool n 0); cbn; split; congruence.
Qed.
Definition division_events (l : list (Q * Q)) : list code := flat_map (fun pc => divide_code (fst pc - snd pc)%Q (fst pc)) l.
Lemma division_expected l : flat_map expected (division_events l) = [].
Proof.
  induction l as [|[p c] l IH]; [reflexivity|]. cbn [division_events flat_map]. rewrite flat_map_app. fold (division_events l). rewrite IH, app_nil_r.
  unfold divide_code. cbn [fst snd]. destruct (Qeq_bool p 0); [destruct (Qeq_bool (p - c) 0)|]; reflexivity.
Qed.
Lemma division_messages l : messages (own_events (division_events l)) <> [] <-> exists p c, In (p, c) l /\ (p == 0)%Q.
Proof.
  induction l as [|[p c] l IH]; [cbn; split; [congruence|intros (? & ? & [] & _)]|].
  cbn [division_events flat_map]. unfold own_events in *. rewrite flat_map_app, messages_app. fold (division_events l). cbn [fst snd].
  assert (H := divide_events (p - c) p). unfold own_events in H.
  split.
  - intros N. destruct (messages (flat_map (events (fun _ => false)) (divide_code (p - c) p))) as [|a k] eqn:E.
    + cbn [app] in N. apply IH in N. destruct N as (p' & c' & I & Z). exists p', c'. split; [right; exact I|exact Z].
    + exists p, c. split; [left; reflexivity|]. apply Qeq_bool_iff. apply H. discriminate.
  - intros (p' & c' & [I|I] & Z) N.
    + injection I as <- <-. apply app_eq_nil in N. destruct N as [N _]. apply Qeq_bool_iff in Z. apply H in Z. contradiction.
    + apply app_eq_nil in N. destruct N as [_ N]. revert N. apply IH. exists p', c'. split; assumption.
Qed.
Lemma division_not_nested l : ~ In Nested (own_events (division_events l)).
Proof.
  induction l as [|[p c] l IH]; intros I; [contradiction|]. cbn [division_events flat_map] in I. unfold own_events in *. rewrite flat_map_app in I.
  apply in_app_or in I. destruct I as [I|I]; [|exact (IH I)]. revert I. unfold divide_code. cbn [fst snd].
  destruct (Qeq_bool p 0); [destruct (Qeq_bool (p - c) 0)|]; cbn; intuition discriminate.
Qed.
Lemma division_settled l : settled_all (division_events l).
Proof.
  induction l as [|[p c] l IH]; [exact Logic.I|]. cbn [division_events flat_map]. unfold settled_all in *. rewrite fold_right_app. fold (division_events l).
  unfold divide_code. cbn [fst snd]. destruct (Qeq_bool p 0); [destruct (Qeq_bool (p - c) 0)|]; cbn [fold_right settled_calls]; auto.
Qed.
Lemma markups_given r class costs prices :
  (call_errors r class (markups_code class None costs prices) <> [] <-> exists p c, In (p, c) (combine prices costs) /\ (p == 0)%Q).
Proof.
  rewrite call_errors_expected.
  - cbn [expected]. unfold markups_code. cbn [app]. fold (division_events (combine prices costs)). rewrite division_expected. cbn [app].
    rewrite <- division_messages. unfold own_error. destruct (messages _); split; congruence.
  - destruct r; [left; reflexivity|right]. cbn [settled_calls]. unfold markups_code. cbn [app]. fold (division_events (combine prices costs)).
    split; [apply no_nested_settled, division_not_nested|apply division_settled].
Qed.
Lemma markups_restored class body costs prices : expected (Call class body) = [] ->
  (call_errors true class (markups_code class (Some body) costs prices) <> [] <-> exists p c, In (p, c) (combine prices costs) /\ (p == 0)%Q).
Proof.
  intros E. rewrite call_errors_expected by (left; reflexivity). cbn [expected]. unfold markups_code.
  rewrite flat_map_app. fold (division_events (combine prices costs)). rewrite division_expected, app_nil_r. cbn [flat_map]. rewrite E. cbn [app].
  rewrite <- division_messages. unfold own_error, own_events. cbn [flat_map events app messages]. fold (own_events (division_events (combine prices costs))).
  unfold messages at 1. cbn [flat_map app]. fold (messages (own_events (division_events (combine prices costs)))). destruct (messages _); split; congruence.
Qed.
Lemma markups_lost class body costs prices : ~ In Nested (own_events body) -> settled_all body -> expected (Call class body) = [] ->
  call_errors false class (markups_code class (Some body) costs prices) = [].
Proof.
  intros N S E. unfold markups_code. cbn [app]. fold (division_events (combine prices costs)).
  rewrite (taken class class body _ N S (division_not_nested _) (division_settled _)), division_expected, app_nil_r.
  cbn [expected] in E. unfold own_error in E. apply app_eq_nil in E. destruct E as [-> E].
  destruct (messages (own_events body)); [reflexivity|discriminate E].
Qed.
