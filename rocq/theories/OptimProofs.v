(** Proofs about the optimisation wrappers. *)
From Coq Require Import Reals List Bool Arith Lia Lra.
From Verif Require Import FltModel ParamsProofs OptimModel OptimSpec.
Import ListNotations.
Local Open Scope nat_scope.

Lemma array_equal_spec v w : array_equal v w = true <-> same_vector v w.
Proof.
  unfold same_vector. revert w. induction v as [|x v IH]; intros [|y w]; cbn [array_equal].
  - split; [|reflexivity]. intros _. split; [reflexivity|]. intros x [].
  - split; [discriminate|]. intros [E _]. discriminate.
  - split; [discriminate|]. intros [E _]. discriminate.
  - rewrite andb_true_iff, IH, feqb_true. split.
    + intros [[-> N] [-> H]]. split; [reflexivity|]. intros z [<-|I]; [|exact (H z I)]. destruct y; discriminate.
    + intros [E H]. injection E as -> ->. split; [split; [reflexivity|]|split; [reflexivity|]].
      * specialize (H y (or_introl eq_refl)). destruct y; try reflexivity. contradiction.
      * intros z I. exact (H z (or_intror I)).
Qed.

Lemma same_decide v w : {same_vector v w} + {~ same_vector v w}.
Proof.
  destruct (array_equal v w) eqn:E.
  - left. apply array_equal_spec, E.
  - right. rewrite <- array_equal_spec. congruence.
Qed.

Lemma same_refl v : (forall x, In x v -> x <> NaN) -> same_vector v v.
Proof. intro H. split; [reflexivity|exact H]. Qed.

Lemma same_swap v w : same_vector v w -> same_vector w v.
Proof. intros [-> H]. split; [reflexivity|exact H]. Qed.

Lemma vector_app log more i : i < List.length log -> vector_of (log ++ more) i = vector_of log i.
Proof. intro H. unfold vector_of. rewrite app_nth1 by exact H. reflexivity. Qed.

Lemma opens_app log more i : i < List.length log -> opens (log ++ more) i <-> opens log i.
Proof. intro H. unfold opens. rewrite !vector_app by lia. reflexivity. Qed.

Lemma runs_app log more n c : n <= List.length log -> runs log n c -> runs (log ++ more) n c.
Proof.
  intros L H. induction H as [|n c H IH O|n c H IH O].
  - constructor.
  - apply runs_open; [apply IH; lia|]. apply opens_app; [lia|exact O].
  - apply runs_continue; [apply IH; lia|]. rewrite opens_app by lia. exact O.
Qed.

Lemma runs_unique log n c d : runs log n c -> runs log n d -> c = d.
Proof.
  intro H. revert d. induction H as [|n c H IH O|n c H IH O]; intros d D; inversion D; subst; auto; contradiction.
Qed.

Lemma opens_decide log i : {opens log i} + {~ opens log i}.
Proof.
  unfold opens. destruct (Nat.eq_dec i 0) as [->|N]; [left; left; reflexivity|].
  destruct (same_decide (vector_of log i) (vector_of log (i - 1))) as [S|S].
  - right. intros [E|E]; contradiction.
  - left. right. exact S.
Qed.

Lemma runs_exists log n : exists c, runs log n c.
Proof.
  induction n as [|n [c IH]]; [exists 0; constructor|].
  destruct (opens_decide log n); [exists (S c)|exists c]; constructor; assumption.
Qed.

Lemma runs_le log n c : runs log n c -> c <= n.
Proof. intro H. induction H; lia. Qed.

(** Answer [a] to request [i] is right up to [P]. *)
Definition good (P : answer -> answer -> Prop) (f : objective_function) (log : list request) (i : nat) (a : answer) : Prop :=
  exists j c, j <= i /\ opens log j /\ (forall k, j < k <= i -> ~ opens log k) /\ runs log (S j) c /\
    P (part (asked (nth i log no_request)) (f (after (nth j log no_request)) c (vector_of log i))) a.

Lemma good_app P f log more i a : i < List.length log -> good P f log i a -> good P f (log ++ more) i a.
Proof.
  intros L (j & c & J & O & K & R & E). exists j, c. split; [exact J|]. split; [apply opens_app; [lia|exact O]|].
  split; [intros k Hk; rewrite opens_app by lia; exact (K k Hk)|].
  split; [apply runs_app; [lia|exact R]|].
  rewrite vector_app by exact L. rewrite !app_nth1 by lia. exact E.
Qed.

(** What holds after the requests in [log]. *)
Definition inv (f : objective_function) (log : list request) (s : state) : Prop :=
  runs log (List.length log) (evaluations s) /\
  match cached s with
  | None => log = []
  | Some (v, (o, e)) =>
      exists n, List.length log = S n /\ v = vector_of log n /\ e = evaluations s /\
      exists j, j <= n /\ opens log j /\ (forall k, j < k <= n -> ~ opens log k) /\ runs log (S j) e /\
        (o, gradients s e) = f (after (nth j log no_request)) e v
  end.

Lemma inv_start f memory : inv f [] (start memory).
Proof. split; [constructor|reflexivity]. Qed.

Lemma refresh_fields f s v : arrays (refresh f s v) = arrays s /\ iterations (refresh f s v) = iterations s.
Proof.
  unfold refresh. destruct (match cached s with None => true | Some (w, _) => negb (array_equal v w) end); [|auto].
  destruct (f (iterations s) (S (evaluations s)) v). auto.
Qed.

Lemma snoc_last (log : list request) r : nth (List.length log) (log ++ [r]) no_request = r.
Proof. rewrite app_nth2, Nat.sub_diag by lia. reflexivity. Qed.

Lemma refresh_inv f log s k v :
  inv f log s ->
  let s' := refresh f s v in let log' := log ++ [Request k v (iterations s)] in
  inv f log' s' /\ good eq f log' (List.length log) (reply s' k).
Proof.
  intros [R C] s' log'. unfold s', refresh.
  assert (L : List.length log' = S (List.length log)) by (unfold log'; rewrite app_length; cbn; lia).
  assert (V : vector_of log' (List.length log) = v) by (unfold vector_of, log'; rewrite snoc_last; reflexivity).
  assert (R' : runs log' (List.length log) (evaluations s)) by (apply runs_app; [lia|exact R]).
  set (stale := match cached s with None => true | Some (w, _) => negb (array_equal v w) end).
  assert (T : opens log' (List.length log) <-> stale = true).
  { unfold opens, stale. destruct (cached s) as [[w [o e]]|].
    - destruct C as (n & Hn & Hw & _). rewrite V. rewrite negb_true_iff.
      rewrite <- not_true_iff_false, array_equal_spec. rewrite Hn. replace (S n - 1) with n by lia.
      unfold log'. rewrite vector_app by lia. rewrite <- Hw. split; [intros [E|E]; [discriminate|exact E]|intro E; right; exact E].
    - rewrite C. cbn. split; auto. }
  destruct stale eqn:ST.
  - assert (O : opens log' (List.length log)) by (apply T; reflexivity).
    destruct (f (iterations s) (S (evaluations s)) v) as [o g] eqn:F.
    split.
    + split; cbn [evaluations cached gradients].
      * rewrite L. apply runs_open; assumption.
      * exists (List.length log). split; [exact L|]. split; [symmetry; exact V|]. split; [reflexivity|].
        exists (List.length log). split; [lia|]. split; [exact O|]. split; [intros i Hi; lia|].
        split; [apply runs_open; assumption|].
        unfold update. rewrite Nat.eqb_refl. unfold log'. rewrite snoc_last. cbn. symmetry. exact F.
    + exists (List.length log), (S (evaluations s)). split; [lia|]. split; [exact O|]. split; [intros i Hi; lia|].
      split; [apply runs_open; assumption|]. rewrite V. unfold log'. rewrite snoc_last. cbn [asked after].
      rewrite F. unfold reply. cbn [cached gradients]. unfold update. rewrite Nat.eqb_refl. destruct k; reflexivity.
  - assert (O : ~ opens log' (List.length log)) by (rewrite T; discriminate).
    unfold stale in ST. destruct (cached s) as [[w [o e]]|] eqn:CS; [|discriminate].
    destruct C as (n & Hn & Hw & He & j & Hj & Oj & Kj & Rj & E).
    apply negb_false_iff, array_equal_spec in ST. destruct ST as [ST _].
    assert (G : exists j, j <= List.length log /\ opens log' j /\ (forall i, j < i <= List.length log -> ~ opens log' i) /\
        runs log' (S j) e /\ (o, gradients s e) = f (after (nth j log' no_request)) e v).
    { exists j. split; [lia|]. split; [apply opens_app; [lia|exact Oj]|].
      split.
      { intros i Hi. destruct (Nat.eq_dec i (List.length log)) as [->|N]; [exact O|].
        unfold log'. rewrite opens_app by lia. apply Kj. lia. }
      split; [apply runs_app; [lia|exact Rj]|].
      unfold log'. rewrite app_nth1 by lia. rewrite ST. exact E. }
    split.
    + split.
      * rewrite L. apply runs_continue; assumption.
      * rewrite CS. exists (List.length log). split; [exact L|]. split; [rewrite V; symmetry; exact ST|].
        split; [exact He|]. rewrite <- ST. exact G.
    + destruct G as (i & Hi & Oi & Ki & Ri & Ei). exists i, e. split; [exact Hi|]. split; [exact Oi|]. split; [exact Ki|].
      split; [exact Ri|]. rewrite V, <- Ei. unfold log' at 1. rewrite snoc_last. cbn [asked]. unfold reply. rewrite CS.
      destruct k; reflexivity.
Qed.

Lemma inv_other f log s a g i :
  (forall e, match cached s with Some (_, (_, e')) => e' = e -> g e = gradients s e | None => True end) ->
  inv f log s -> inv f log (State a g i (evaluations s) (cached s)).
Proof.
  intros G [R C]. split; [exact R|]. cbn [cached gradients evaluations].
  destruct (cached s) as [[v [o e]]|]; [|exact C].
  destruct C as (n & Hn & Hv & He & j & Hj & Oj & Kj & Rj & E).
  exists n. split; [exact Hn|]. split; [exact Hv|]. split; [exact He|]. exists j.
  repeat (split; [assumption|]). rewrite (G e eq_refl). exact E.
Qed.

Lemma requests_ext memory memory' ticks actions : (forall a, memory a = memory' a) ->
  requests memory ticks actions = requests memory' ticks actions.
Proof.
  revert memory memory' ticks. induction actions as [|[k a|a v|e v|] rest IH]; intros m m' t E; cbn [requests]; [reflexivity| | | |].
  - rewrite E. f_equal. apply IH, E.
  - apply IH. intro b. destruct (Nat.eqb b a); auto.
  - apply IH, E.
  - apply IH, E.
Qed.

Lemma run_spec f actions : reads_gradients_only actions -> forall s log, inv f log s ->
  let '(s', answers) := run f s actions in
  let rs := requests (arrays s) (iterations s) actions in
  inv f (log ++ rs) s' /\ List.length answers = List.length rs /\
  (forall i, i < List.length rs -> good eq f (log ++ rs) (List.length log + i) (nth i answers (Value NaN))) /\
  iterations s' = iterations s + ticks_in actions.
Proof.
  unfold reads_gradients_only. induction actions as [|a rest IH]; intros RG s log I.
  - cbn [run requests]. rewrite app_nil_r. split; [exact I|]. split; [reflexivity|]. split; [cbn; intros i Hi; lia|].
    unfold ticks_in. cbn. lia.
  - assert (RG' : forall e v, ~ In (Overwrite e v) rest) by (intros e v H; apply (RG e v); right; exact H).
    specialize (IH RG'). cbn [run]. destruct a as [k r|r v|e v|]; cbn [step requests].
    + destruct (refresh_fields f s (arrays s r)) as [A T].
      destruct (refresh_inv f log s k (arrays s r) I) as [I' G].
      set (s1 := refresh f s (arrays s r)) in *.
      specialize (IH s1 _ I'). destruct (run f s1 rest) as [s' answers].
      rewrite A, T in IH. destruct IH as (J & L & GG & TT).
      rewrite <- app_assoc in J, GG. cbn [app] in J, GG.
      split; [exact J|]. split; [cbn; rewrite L; reflexivity|]. split.
      * intros i Hi. cbn [List.length] in Hi. destruct i as [|i]; cbn [nth].
        -- rewrite Nat.add_0_r.
           change (log ++ Request k (arrays s r) (iterations s) :: requests (arrays s) (iterations s) rest)
             with (log ++ [Request k (arrays s r) (iterations s)] ++ requests (arrays s) (iterations s) rest).
           rewrite app_assoc. apply good_app; [rewrite app_length; cbn; lia|exact G].
        -- assert (Q := GG i ltac:(lia)). rewrite app_length in Q. cbn [List.length] in Q.
           replace (List.length log + S i) with (List.length log + 1 + i) by lia. exact Q.
      * exact TT.
    + assert (I' : inv f log (State (update (arrays s) r v) (gradients s) (iterations s) (evaluations s) (cached s)))
        by (apply inv_other; [|exact I]; intro e; destruct (cached s) as [[? [? ?]]|]; auto).
      specialize (IH _ _ I'). destruct (run f _ rest) as [s' answers]. exact IH.
    + exfalso. apply (RG e v). left. reflexivity.
    + assert (I' : inv f log (State (arrays s) (gradients s) (S (iterations s)) (evaluations s) (cached s)))
        by (apply inv_other; [|exact I]; intro e; destruct (cached s) as [[? [? ?]]|]; auto).
      specialize (IH _ _ I'). destruct (run f _ rest) as [s' answers]. destruct IH as (J & L & GG & TT).
      split; [exact J|]. split; [exact L|]. split; [exact GG|].
      unfold ticks_in in *. cbn in TT |- *. lia.
Qed.

Lemma run_answered f memory actions : reads_gradients_only actions ->
  let '(s, answers) := run f (start memory) actions in
  answered f (requests memory 0 actions) answers.
Proof.
  intro RG. assert (H := run_spec f actions RG (start memory) [] (inv_start f memory)).
  destruct (run f (start memory) actions) as [s answers]. cbn [app List.length Nat.add] in H.
  destruct H as (_ & L & G & _). split; [exact L|]. intros i Hi. destruct (G i Hi) as (j & c & A & B & C & D & E).
  exists j, c. repeat (split; [assumption|]). symmetry. exact E.
Qed.

Lemma run_stats f memory actions : reads_gradients_only actions ->
  let '(s, _) := run f (start memory) actions in
  let log := requests memory 0 actions in
  runs log (List.length log) (snd (solver_stats s)) /\ fst (solver_stats s) = ticks_in actions.
Proof.
  intro RG. assert (H := run_spec f actions RG (start memory) [] (inv_start f memory)).
  destruct (run f (start memory) actions) as [s answers]. cbn [app] in H. destruct H as ([R _] & _ & _ & T).
  split; [exact R|exact T].
Qed.

(** ** Knitro *)

Lemma normalize_clipped limit x : (0 <= limit)%R -> clipped limit x (normalize limit x).
Proof.
  intro H. unfold clipped, normalize. destruct x as [r| | |]; cbn; unfold rltb.
  - destruct (Rlt_dec r (- limit)); cbn; unfold rltb.
    + destruct (Rlt_dec limit (- limit)); [lra|]. split; [|split; [intro; lra|reflexivity]].
      intro A. assert (B := Rle_abs (- r)). rewrite Rabs_Ropp in B. lra.
    + destruct (Rlt_dec limit r).
      * split; [|split; [reflexivity|intro; lra]]. intro A. assert (B := Rle_abs r). lra.
      * split; [reflexivity|]. split; intro; lra.
  - reflexivity.
  - unfold rltb. destruct (Rlt_dec limit (- limit)); [lra|reflexivity].
  - reflexivity.
Qed.

Lemma answer_clipped limit a : (0 <= limit)%R -> clipped_answer limit a (normalize_answer limit a).
Proof.
  intro H. destruct a as [x|[g|]]; cbn.
  - apply normalize_clipped, H.
  - induction g as [|x g IH]; cbn; constructor; [apply normalize_clipped, H|exact IH].
  - exact I.
Qed.

Lemma catch_up_spec s : catch_up s =
  KState (State (arrays (base s)) (gradients (base s)) (iterations (base s) + (reached s - local s))
            (evaluations (base s)) (cached (base s)))
         (local s + (reached s - local s)) (reached s).
Proof.
  unfold catch_up. generalize (reached s - local s) as n. induction n as [|n IH].
  - cbn. rewrite !Nat.add_0_r. destruct s as [[a g i e c] l r]. reflexivity.
  - cbn [Nat.iter nat_rect]. unfold Nat.iter in IH. rewrite IH. cbn. f_equal; [f_equal|]; lia.
Qed.

Lemma good_weaken (P Q : answer -> answer -> Prop) f log i a b : (forall x, P x a -> Q x b) -> good P f log i a -> good Q f log i b.
Proof.
  intros H (j & c & A & B & C & D & E). exists j, c. repeat (split; [assumption|]). apply H, E.
Qed.

Lemma knitro_spec f limit both actions : (0 <= limit)%R -> forall s log, inv f log (base s) ->
  iterations (base s) = local s ->
  let '(s', answers) := knitro_run f limit both s actions in
  let rs := knitro_requests both (arrays (base s)) (local s) (reached s) actions in
  inv f (log ++ rs) (base s') /\ iterations (base s') = local s' /\ List.length answers = List.length rs /\
  (forall i, i < List.length rs ->
     good (clipped_answer limit) f (log ++ rs) (List.length log + i) (nth i answers (Value NaN))).
Proof.
  intro LIM. induction actions as [|a rest IH]; intros s log I E.
  - cbn [knitro_run knitro_requests]. rewrite app_nil_r. split; [exact I|]. split; [exact E|]. split; [reflexivity|].
    cbn; intros i Hi; lia.
  - cbn [knitro_run]. destruct a as [k r|r v|n]; cbn [knitro_step knitro_requests].
    + set (s1 := match k with Objective => catch_up s | Gradient => if both then catch_up s else s end).
      set (seen := match k with Objective => Nat.max (local s) (reached s)
                           | Gradient => if both then Nat.max (local s) (reached s) else local s end).
      assert (Q : inv f log (base s1) /\ iterations (base s1) = local s1 /\ local s1 = seen /\
                  arrays (base s1) = arrays (base s) /\ reached s1 = reached s).
      { assert (U : forall t, t = catch_up s -> inv f log (base t) /\ iterations (base t) = local t /\
            local t = Nat.max (local s) (reached s) /\ arrays (base t) = arrays (base s) /\ reached t = reached s).
        { intros t ->. rewrite catch_up_spec. cbn [base local reached iterations arrays].
          split; [|split; [lia|split; [lia|split; reflexivity]]].
          apply inv_other; [|exact I]. intro e. destruct (cached (base s)) as [[? [? ?]]|]; auto. }
        unfold s1, seen. destruct k; [apply U; reflexivity|]. destruct both; [apply U; reflexivity|].
        split; [exact I|]. split; [exact E|]. auto. }
      destruct Q as (I1 & E1 & L1 & A1 & R1).
      destruct (refresh_fields f (base s1) (arrays (base s1) r)) as [A T].
      destruct (refresh_inv f log (base s1) k (arrays (base s1) r) I1) as [I' G].
      set (b := refresh f (base s1) (arrays (base s1) r)) in *.
      assert (E' : iterations (base (KState b (local s1) (reached s1))) = local (KState b (local s1) (reached s1)))
        by (cbn; congruence).
      specialize (IH (KState b (local s1) (reached s1)) _ I' E').
      destruct (knitro_run f limit both (KState b (local s1) (reached s1)) rest) as [s' answers].
      cbn [base local reached] in IH. rewrite A, R1 in IH. destruct IH as (J & EE & L & GG).
      rewrite <- app_assoc in J, GG. cbn [app] in J, GG.
      rewrite E1, L1, A1 in *.
      split; [exact J|]. split; [exact EE|]. split; [cbn; rewrite L; reflexivity|].
      intros i Hi. cbn [List.length] in Hi. destruct i as [|i]; cbn [nth].
      * rewrite Nat.add_0_r.
        change (log ++ Request k (arrays (base s) r) seen :: knitro_requests both (arrays (base s)) seen (reached s) rest)
          with (log ++ [Request k (arrays (base s) r) seen] ++ knitro_requests both (arrays (base s)) seen (reached s) rest).
        rewrite app_assoc. apply good_app; [rewrite app_length; cbn; lia|].
        apply (good_weaken eq _ f _ _ (reply b k)); [|exact G]. intros x ->. apply answer_clipped, LIM.
      * assert (Q := GG i ltac:(lia)). rewrite app_length in Q. cbn [List.length] in Q.
        replace (List.length log + S i) with (List.length log + 1 + i) by lia. exact Q.
    + assert (I' : inv f log (State (update (arrays (base s)) r v) (gradients (base s)) (iterations (base s))
                     (evaluations (base s)) (cached (base s))))
        by (apply inv_other; [|exact I]; intro e; destruct (cached (base s)) as [[? [? ?]]|]; auto).
      specialize (IH (KState _ (local s) (reached s)) _ I' E).
      destruct (knitro_run f limit both _ rest) as [s' answers]. exact IH.
    + specialize (IH (KState (base s) (local s) n) log I E).
      destruct (knitro_run f limit both _ rest) as [s' answers]. exact IH.
Qed.

Lemma knitro_run_answered f limit both memory actions : (0 <= limit)%R ->
  let '(s, answers) := knitro_run f limit both (knitro_start memory) actions in
  let log := knitro_requests both memory 0 0 actions in
  knitro_answered limit f log answers /\ runs log (List.length log) (snd (solver_stats (base s))).
Proof.
  intro LIM. assert (H := knitro_spec f limit both actions LIM (knitro_start memory) [] (inv_start f memory) eq_refl).
  destruct (knitro_run f limit both (knitro_start memory) actions) as [s answers].
  cbn [app List.length Nat.add] in H. destruct H as ([R _] & _ & L & G). split; [|exact R].
  split; [exact L|]. intros i Hi. exact (G i Hi).
Qed.
