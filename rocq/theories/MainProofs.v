(** Proofs about the command line. *)
From Coq Require Import String ZArith List Bool Lia.
From Verif Require Import Base Kind Ints Str Literal LiteralProofs2 Arity Term Match Eval ListOps Typing Build Scope Lexer Parse Check Main SpecMain LexProofs TermProofs.
Import ListNotations.
Open Scope Z_scope.

Lemma starts_spec p a : starts p a = true <-> exists r, a = txt p ++ r.
Proof.
  unfold starts. rewrite text_eqb_eq. split.
  - intros H. exists (skipn (length (txt p)) a). rewrite <- H at 1. symmetry. apply firstn_skipn.
  - intros (r & ->). rewrite firstn_app, Nat.sub_diag, firstn_all. cbn. apply app_nil_r.
Qed.
Lemma starts_app p r : starts p (txt p ++ r) = true.
Proof. apply starts_spec. eauto. Qed.
Lemma substr_app p r n : n = length (txt p) -> substr_from n (txt p ++ r) = r.
Proof. intros ->. unfold substr_from. now rewrite skipn_app, Nat.sub_diag, skipn_all. Qed.
Lemma switch_cases k : In k switches -> k = txt "parse-let" \/ k = txt "print-dag" \/ k = txt "stats" \/ k = txt "stats-all" \/ k = txt "stats-compact" \/
  k = txt "rule-sym-table" \/ k = txt "normalize-dec" \/ k = txt "normalize-num" \/ k = txt "normalize-hex".
Proof. unfold switches. cbn [map In]. generalize (txt "parse-let"), (txt "print-dag"), (txt "stats"), (txt "stats-all"), (txt "stats-compact"), (txt "rule-sym-table"), (txt "normalize-dec"), (txt "normalize-num"), (txt "normalize-hex").
  intros. repeat (destruct H as [<-|H]; [tauto|]). destruct H. Qed.
Definition switch (o : options) (k : text) (b : bool) : options :=
  mkOptions (if text_eqb k (txt "parse-let") then b else o_parseLet o) (if text_eqb k (txt "rule-sym-table") then b else o_ruleSymTable o)
    (if text_eqb k (txt "normalize-dec") then b else o_normDec o) (if text_eqb k (txt "normalize-hex") then b else o_normHex o)
    (if text_eqb k (txt "normalize-num") then b else o_normNum o).
Lemma setOption_in o k b : In k switches -> setOption o k b = Some (switch o k b).
Proof.
  intros H. apply switch_cases in H. destruct o as [o1 o2 o3 o4 o5].
  repeat (destruct H as [->|H]; [vm_compute; reflexivity|]). subst k. vm_compute. reflexivity.
Qed.
Lemma setOption_some o k b o' : setOption o k b = Some o' -> In k switches.
Proof.
  unfold setOption, switches. cbn [map In].
  destruct (text_eqb k (txt "parse-let")) eqn:E1; [apply text_eqb_eq in E1; auto|].
  destruct (text_eqb k (txt "print-dag")) eqn:E2; [apply text_eqb_eq in E2; auto|].
  destruct (text_eqb k (txt "stats")) eqn:E3; [apply text_eqb_eq in E3; auto|].
  destruct (text_eqb k (txt "stats-all")) eqn:E4; [apply text_eqb_eq in E4; auto 6|].
  destruct (text_eqb k (txt "stats-compact")) eqn:E5; [apply text_eqb_eq in E5; auto 7|]. cbn [orb].
  destruct (text_eqb k (txt "rule-sym-table")) eqn:E6; [apply text_eqb_eq in E6; auto 8|].
  destruct (text_eqb k (txt "normalize-dec")) eqn:E7; [apply text_eqb_eq in E7; auto 9|].
  destruct (text_eqb k (txt "normalize-num")) eqn:E8; [apply text_eqb_eq in E8; auto 10|].
  destruct (text_eqb k (txt "normalize-hex")) eqn:E9; [apply text_eqb_eq in E9; auto 11|].
  discriminate.
Qed.

(** The part of the loop that sets an option. *)
Definition set_of (o : options) (arg : text) : option options :=
  if starts "--no-" arg then setOption o (substr_from 5 arg) false
  else if starts "--" arg then setOption o (substr_from 2 arg) true else None.
Lemma set_on o k : In k switches -> set_of o (txt "--" ++ k) = Some (switch o k true).
Proof.
  intros H. unfold set_of. rewrite starts_app, (substr_app "--" k 2 eq_refl).
  replace (starts "--no-" (txt "--" ++ k)) with false; [now apply setOption_in|].
  apply switch_cases in H. repeat (destruct H as [->|H]; [vm_compute; reflexivity|]). subst k. vm_compute. reflexivity.
Qed.
Lemma set_off o k : In k switches -> set_of o (txt "--no-" ++ k) = Some (switch o k false).
Proof. intros H. unfold set_of. rewrite starts_app, (substr_app "--no-" k 5 eq_refl). now apply setOption_in. Qed.
Lemma set_none o a : (forall k b, ~ plain_item a (ISwitch k b)) -> set_of o a = None.
Proof.
  intros H. unfold set_of. destruct (starts "--no-" a) eqn:E1.
  - apply starts_spec in E1 as (r & ->). rewrite (substr_app "--no-" r 5 eq_refl).
    destruct (setOption o r false) eqn:E; [|reflexivity]. apply setOption_some in E. now destruct (H r false (pi_off r E)).
  - destruct (starts "--" a) eqn:E2; [|reflexivity]. apply starts_spec in E2 as (r & ->). rewrite (substr_app "--" r 2 eq_refl).
    destruct (setOption o r true) eqn:E; [|reflexivity]. apply setOption_some in E. now destruct (H r true (pi_on r E)).
Qed.
Ltac not_switch H := apply switch_cases in H; repeat (destruct H as [->|H]; [discriminate|]); subst; discriminate.
Lemma switch_form a k b : plain_item a (ISwitch k b) -> In k switches /\ a = (if b then txt "--" else txt "--no-") ++ k.
Proof. intros H. inversion H; subst; auto. Qed.
Lemma include_no_switch f : forall k b, ~ plain_item (txt "--include=" ++ f) (ISwitch k b).
Proof. intros k b H. apply switch_form in H as [I E]. revert E. apply switch_cases in I. destruct b; repeat (destruct I as [->|I]; [discriminate|]); subst; discriminate. Qed.
Lemma reference_no_switch f : forall k b, ~ plain_item (txt "--reference=" ++ f) (ISwitch k b).
Proof. intros k b H. apply switch_form in H as [I E]. revert E. apply switch_cases in I. destruct b; repeat (destruct I as [->|I]; [discriminate|]); subst; discriminate. Qed.
Lemma other_no_switch a : a = txt "--help" \/ a = txt "--show-config" \/ a = txt "-t" \/ a = txt "-v" -> forall k b, ~ plain_item a (ISwitch k b).
Proof.
  intros A k b H. apply switch_form in H as [I E]. revert E.
  apply switch_cases in I. destruct A as [->|[->|[->| ->]]]; destruct b; repeat (destruct I as [->|I]; [discriminate|]); subst; discriminate.
Qed.

(** One item. *)
Definition add_file (f g : option text) : option text := match f with Some _ => f | None => g end.
Lemma read_unfold tr arg args o incs file : readArgs tr (arg :: args) o incs file =
  match set_of o arg with
  | Some o' => readArgs tr args o' incs file
  | None =>
      if starts "--include=" arg || starts "--reference=" arg then
        readArgs tr args o (incs ++ [(match after_eq arg with Some f => f | None => arg end, starts "--include=" arg)]) file
      else if text_eqb arg (txt "--help") then Ok ShowHelp
      else if text_eqb arg (txt "--show-config") then Ok ShowConfig
      else if text_eqb arg (txt "-t") then
        match args with
        | [] => Err
        | _ :: args'' => if tr then readArgs tr args'' o incs file else Err
        end
      else if text_eqb arg (txt "-v") then (if tr then readArgs tr args o incs file else Err)
      else match file with None => readArgs tr args o incs (Some arg) | Some _ => Err end
  end.
Proof. reflexivity. Qed.
Lemma read_switch tr k b a args o incs file : plain_item a (ISwitch k b) -> readArgs tr (a :: args) o incs file = readArgs tr args (switch o k b) incs file.
Proof.
  intros H. apply switch_form in H as [I ->]. rewrite read_unfold. destruct b; [now rewrite set_on|now rewrite set_off].
Qed.
Lemma read_include tr f args o incs file : readArgs tr ((txt "--include=" ++ f) :: args) o incs file = readArgs tr args o (incs ++ [(f, true)]) file.
Proof. rewrite read_unfold, (set_none o _ (include_no_switch f)), starts_app. reflexivity. Qed.
Lemma read_reference tr f args o incs file : readArgs tr ((txt "--reference=" ++ f) :: args) o incs file = readArgs tr args o (incs ++ [(f, false)]) file.
Proof. rewrite read_unfold, (set_none o _ (reference_no_switch f)), starts_app. reflexivity. Qed.
Lemma read_help tr args o incs file : readArgs tr (txt "--help" :: args) o incs file = Ok ShowHelp.
Proof. rewrite read_unfold, set_none; [reflexivity|]. apply other_no_switch. auto. Qed.
Lemma read_config tr args o incs file : readArgs tr (txt "--show-config" :: args) o incs file = Ok ShowConfig.
Proof. rewrite read_unfold, set_none; [reflexivity|]. apply other_no_switch. auto. Qed.
Lemma read_trace tr args o incs file : readArgs tr (txt "-t" :: args) o incs file =
  match args with [] => Err | _ :: args'' => if tr then readArgs tr args'' o incs file else Err end.
Proof. rewrite read_unfold, set_none; [reflexivity|]. apply other_no_switch. auto. Qed.
Lemma read_verbose tr args o incs file : readArgs tr (txt "-v" :: args) o incs file = if tr then readArgs tr args o incs file else Err.
Proof. rewrite read_unfold, set_none; [reflexivity|]. apply other_no_switch. auto. Qed.
Lemma read_file tr a args o incs file : (forall i, ~ plain_item a i) -> a <> txt "-t" ->
  readArgs tr (a :: args) o incs file = match file with None => readArgs tr args o incs (Some a) | Some _ => Err end.
Proof.
  intros H T. rewrite read_unfold, set_none; [|auto].
  destruct (starts "--include=" a) eqn:E1; [apply starts_spec in E1 as (r & ->); destruct (H _ (pi_include r))|].
  destruct (starts "--reference=" a) eqn:E2; [apply starts_spec in E2 as (r & ->); destruct (H _ (pi_reference r))|]. cbn [orb].
  destruct (text_eqb a (txt "--help")) eqn:E3; [apply text_eqb_eq in E3 as ->; destruct (H _ pi_help)|].
  destruct (text_eqb a (txt "--show-config")) eqn:E4; [apply text_eqb_eq in E4 as ->; destruct (H _ pi_config)|].
  destruct (text_eqb a (txt "-t")) eqn:E5; [apply text_eqb_eq in E5; contradiction|].
  destruct (text_eqb a (txt "-v")) eqn:E6; [apply text_eqb_eq in E6 as ->; destruct (H _ pi_verbose)|]. reflexivity.
Qed.

(** All items. *)
Fixpoint switch_all (o : options) (is : list item) : options :=
  match is with [] => o | ISwitch k b :: is => switch_all (switch o k b) is | _ :: is => switch_all o is end.
Lemma switch_all_spec is : forall o, switch_all o is = mkOptions (switched (txt "parse-let") (o_parseLet o) is) (switched (txt "rule-sym-table") (o_ruleSymTable o) is)
    (switched (txt "normalize-dec") (o_normDec o) is) (switched (txt "normalize-hex") (o_normHex o) is) (switched (txt "normalize-num") (o_normNum o) is).
Proof. induction is as [|i is IH]; intros o; [now destruct o|]. destruct i; cbn [switch_all switched]; rewrite IH; reflexivity. Qed.
Definition one_file (file : option text) (is : list item) : option text := match file with Some f => Some f | None => hd_error (files_in is) end.
Lemma read_items tr pre : forall post args o incs file, items args (pre ++ post) -> Forall (goes_on tr) pre ->
  (length (files_in pre) + (match file with Some _ => 1 | None => 0 end) <= 1)%nat ->
  exists args', items args' post /\ readArgs tr args o incs file = readArgs tr args' (switch_all o pre) (incs ++ includes_of pre) (one_file file pre).
Proof.
  induction pre as [|i pre IH]; intros post args o incs file I F L.
  - exists args. split; [exact I|]. cbn. rewrite app_nil_r. now destruct file.
  - inversion F as [|? ? Fi Fp]; subst. cbn [app] in I. inversion I as [|a i' args' is' P I' |tag args' is' I' |  |a args' is' H T I']; subst.
    + inversion P as [k K Ea Ei|k K Ea Ei|f Ea Ei|f Ea Ei|Ea Ei|Ea Ei|Ea Ei]; subst; cbn [files_in] in L; try contradiction.
      * rewrite (read_switch tr k true _ args' o incs file P). exact (IH post args' (switch o k true) incs file I' Fp L).
      * rewrite (read_switch tr k false _ args' o incs file P). exact (IH post args' (switch o k false) incs file I' Fp L).
      * rewrite read_include. destruct (IH post args' o (incs ++ [(f, true)]) file I' Fp L) as (args'' & X & E). exists args''. split; [exact X|].
        rewrite E, <- app_assoc. reflexivity.
      * rewrite read_reference. destruct (IH post args' o (incs ++ [(f, false)]) file I' Fp L) as (args'' & X & E). exists args''. split; [exact X|].
        rewrite E, <- app_assoc. reflexivity.
      * cbn in Fi. subst tr. rewrite read_verbose. exact (IH post args' o incs file I' Fp L).
    + cbn in Fi. subst tr. rewrite read_trace. exact (IH post args' o incs file I' Fp L).
    + contradiction.
    + rewrite (read_file tr a args' o incs file H T). cbn [files_in length] in L. destruct file as [f|]; [lia|].
      destruct (IH post args' o incs (Some a) I' Fp) as (args'' & X & E); [lia|]. exists args''. split; [exact X|]. rewrite E. reflexivity.
Qed.
Lemma items_nil args : items args [] -> args = [].
Proof. intros H. now inversion H. Qed.
Lemma read_runnable tr is args : items args is -> runnable tr is -> readArgs tr args options_init [] None = Ok (Go (options_of is) (includes_of is) (hd_error (files_in is))).
Proof.
  intros I [F L]. rewrite <- (app_nil_r is) in I. destruct (read_items tr is [] args options_init [] None I F) as (args' & X & E); [lia|].
  apply items_nil in X. subst args'. rewrite E. cbn [readArgs]. rewrite switch_all_spec. reflexivity.
Qed.

(** Every list of arguments has exactly one list of items. *)
Lemma switch_dec a : (exists k b, plain_item a (ISwitch k b)) \/ (forall k b, ~ plain_item a (ISwitch k b)).
Proof.
  destruct (in_dec (list_eq_dec Z.eq_dec) a (map (app (txt "--")) switches)) as [I|N1].
  { apply in_map_iff in I as (k & <- & I). left. exists k, true. now constructor. }
  destruct (in_dec (list_eq_dec Z.eq_dec) a (map (app (txt "--no-")) switches)) as [I|N2].
  { apply in_map_iff in I as (k & <- & I). left. exists k, false. now constructor. }
  right. intros k b H. apply switch_form in H as [I ->]. destruct b; [apply N1|apply N2]; now apply in_map.
Qed.
Lemma plain_dec a : (exists i, plain_item a i) \/ (forall i, ~ plain_item a i).
Proof.
  destruct (switch_dec a) as [(k & b & H)|N]; [eauto|].
  destruct (starts "--include=" a) eqn:E1; [apply starts_spec in E1 as (r & ->); left; exists (IInclude r); apply pi_include|].
  destruct (starts "--reference=" a) eqn:E2; [apply starts_spec in E2 as (r & ->); left; exists (IReference r); apply pi_reference|].
  destruct (text_eqb a (txt "--help")) eqn:E3; [apply text_eqb_eq in E3 as ->; left; exists IHelp; apply pi_help|].
  destruct (text_eqb a (txt "--show-config")) eqn:E4; [apply text_eqb_eq in E4 as ->; left; exists IConfig; apply pi_config|].
  destruct (text_eqb a (txt "-v")) eqn:E6; [apply text_eqb_eq in E6 as ->; left; exists IVerbose; apply pi_verbose|].
  right. intros i H. inversion H; subst; try (now apply N in H); discriminate.
Qed.
Lemma items_total : forall n args, (length args <= n)%nat -> exists is, items args is.
Proof.
  induction n as [|n IH]; intros args L.
  - destruct args; [|cbn in L; lia]. exists []. constructor.
  - destruct args as [|a args]; [exists []; constructor|]. cbn [length] in L.
    destruct (plain_dec a) as [(i & P)|N].
    + destruct (IH args) as [is I]; [lia|]. exists (i :: is). now apply im_plain.
    + destruct (text_eqb a (txt "-t")) eqn:E.
      * apply text_eqb_eq in E. subst a. destruct args as [|tag args]; [exists [INoTag]; apply im_no_tag|]. cbn [length] in L.
        destruct (IH args) as [is I]; [lia|]. exists (ITrace tag :: is). now apply im_trace.
      * destruct (IH args) as [is I]; [lia|]. exists (IFile a :: is). apply im_file; auto. intros ->. rewrite (proj2 (text_eqb_eq _ _) eq_refl) in E. discriminate.
Qed.
Definition classify (a : text) : option item :=
  if existsb (text_eqb a) (map (app (txt "--")) switches) then Some (ISwitch (skipn 2 a) true)
  else if existsb (text_eqb a) (map (app (txt "--no-")) switches) then Some (ISwitch (skipn 5 a) false)
  else if starts "--include=" a then Some (IInclude (skipn 10 a))
  else if starts "--reference=" a then Some (IReference (skipn 12 a))
  else if text_eqb a (txt "--help") then Some IHelp
  else if text_eqb a (txt "--show-config") then Some IConfig
  else if text_eqb a (txt "-v") then Some IVerbose
  else None.
Lemma classify_spec a i : plain_item a i -> classify a = Some i.
Proof.
  intros P. inversion P as [k K|k K|f|f| | |]; subst; clear P.
  - apply switch_cases in K. repeat (destruct K as [->|K]; [vm_compute; reflexivity|]). subst k. vm_compute. reflexivity.
  - apply switch_cases in K. repeat (destruct K as [->|K]; [vm_compute; reflexivity|]). subst k. vm_compute. reflexivity.
  - vm_compute. reflexivity.
  - vm_compute. reflexivity.
  - vm_compute. reflexivity.
  - vm_compute. reflexivity.
  - vm_compute. reflexivity.
Qed.
Lemma trace_not_plain i : ~ plain_item (txt "-t") i.
Proof. intros P. apply classify_spec in P. discriminate P. Qed.
Lemma items_unique args is : items args is -> forall js, items args js -> is = js.
Proof.
  induction 1 as [|a i args is P I IH|tag args is I IH| |a args is N T I IH]; intros js J.
  - now inversion J.
  - inversion J as [|a' j args' js' Q J' E1 E2|tag args' js' J' E1 E2|E1 E2|a' args' js' N T J' E1 E2]; subst.
    + apply classify_spec in P, Q. f_equal; [congruence|]. now apply IH.
    + now apply trace_not_plain in P.
    + now apply trace_not_plain in P.
    + now apply N in P.
  - inversion J as [|a' j args' js' Q J' E1 E2|tag' args' js' J' E1 E2|E1 E2|a' args' js' N T J' E1 E2]; subst.
    + now apply trace_not_plain in Q.
    + f_equal. now apply IH.
    + now destruct T.
  - inversion J as [|a' j args' js' Q J' E1 E2|tag' args' js' J' E1 E2|E1 E2|a' args' js' N T J' E1 E2]; subst.
    + now apply trace_not_plain in Q.
    + reflexivity.
    + now destruct T.
  - inversion J as [|a' j args' js' Q J' E1 E2|tag' args' js' J' E1 E2|E1 E2|a' args' js' N' T' J' E1 E2]; subst.
    + now apply N in Q.
    + now destruct T.
    + now destruct T.
    + f_equal. now apply IH.
Qed.

Lemma runnable_dec tr is : runnable tr is \/ ~ runnable tr is.
Proof.
  assert (D : forall i, {goes_on tr i} + {~ goes_on tr i}).
  { intros [k b|f|f| | |tag| | |f]; cbn; auto; apply bool_dec. }
  unfold runnable. destruct (Forall_dec _ D is) as [F|F]; [|tauto]. destruct (le_dec (length (files_in is)) 1) as [L|L]; tauto.
Qed.
Lemma runnable_nil tr : runnable tr [].
Proof. split; [constructor|cbn; lia]. Qed.
Lemma files_app is js : files_in (is ++ js) = files_in is ++ files_in js.
Proof. induction is as [|[k b|f|f| | |tag| | |f] is IH]; cbn [app files_in]; try exact IH; [reflexivity|]. now rewrite IH. Qed.
Lemma first_stop tr post : forall pre, runnable tr pre -> ~ runnable tr (pre ++ post) ->
  exists a i b, pre ++ post = a ++ i :: b /\ runnable tr a /\ ~ runnable tr (a ++ [i]).
Proof.
  induction post as [|i post IH]; intros pre R N; [rewrite app_nil_r in N; contradiction|].
  destruct (runnable_dec tr (pre ++ [i])) as [R'|R'].
  - destruct (IH (pre ++ [i]) R') as (a & j & b & E & X); [now rewrite <- app_assoc|]. exists a, j, b. rewrite <- E, <- app_assoc. auto.
  - exists pre, i, post. auto.
Qed.
Lemma main_stops : forall G tracing stdin args is, items args is -> ~ runnable tracing is ->
  exists pre i post, is = pre ++ i :: post /\ runnable tracing pre /\ ~ runnable tracing (pre ++ [i]) /\
    match i with
    | IHelp => main G tracing stdin args = Ok Help
    | IConfig => main G tracing stdin args = Ok Config
    | INoTag => main G tracing stdin args = Err
    | ITrace _ | IVerbose => tracing = false /\ main G tracing stdin args = Err
    | IFile _ => length (files_in pre) = 1%nat /\ main G tracing stdin args = Err
    | ISwitch _ _ | IInclude _ | IReference _ => False
    end.
Proof.
  intros G tr stdin args is I N. destruct (first_stop tr is [] (runnable_nil tr) N) as (pre & i & post & E & R & NR). cbn [app] in E. subst is.
  exists pre, i, post. split; [reflexivity|]. split; [exact R|]. split; [exact NR|].
  pose proof R as [F L]. destruct (read_items tr pre (i :: post) args options_init [] None I F) as (args' & X & EQ); [lia|].
  unfold main. rewrite EQ.
  assert (NG : ~ (goes_on tr i /\ (length (files_in (pre ++ [i])) <= 1)%nat)).
  { intros [A B]. apply NR. split; [|exact B]. apply Forall_app. split; [exact F|]. constructor; [exact A|constructor]. }
  rewrite files_app, app_length in NG.
  inversion X as [|a j args'' js P J|tag args'' js J| |a args'' js Na T J]; subst.
  - inversion P; subst; cbn [goes_on files_in length] in NG; try (apply NG; split; [exact I0 || exact (Logic.I)|lia]).
    + rewrite read_help. reflexivity.
    + rewrite read_config. reflexivity.
    + assert (tr = false) by (destruct tr; [|reflexivity]; destruct NG; split; [reflexivity|lia]). split; [assumption|]. rewrite read_verbose. subst tr. reflexivity.
  - cbn [goes_on files_in length] in NG. assert (tr = false) by (destruct tr; [|reflexivity]; destruct NG; split; [reflexivity|lia]). split; [assumption|].
    rewrite read_trace. subst tr. reflexivity.
  - rewrite read_trace. reflexivity.
  - cbn [goes_on files_in length] in NG. assert (L1 : length (files_in pre) = 1%nat) by (destruct (files_in pre) as [|? [|? ?]]; cbn in *; [exfalso; apply NG; split; [exact Logic.I|lia]|reflexivity|lia]).
    split; [exact L1|]. rewrite (read_file tr a args'' _ _ _ Na T). unfold one_file. destruct (files_in pre) as [|f fs]; [discriminate L1|]. reflexivity.
Qed.
Lemma in_files is f : In (IFile f) is -> In f (files_in is).
Proof.
  induction is as [|i is IH]; [intros []|]. intros [->|H]; [now left|]. apply IH in H. destruct i; cbn [files_in]; auto. now right.
Qed.
Lemma main_unrecognized : forall G tracing stdin args is f, items args is -> In (IFile f) is -> (forall s, g_files G (g_path G (s_input s) f) = None) ->
  forall v s, main G tracing stdin args <> Ok (Answer v s).
Proof.
  intros G tr stdin args is f I F NF v s H. destruct (runnable_dec tr is) as [R|R].
  - unfold main in H. rewrite (read_runnable tr is args I R) in H. cbn [bind] in H. destruct R as [_ L]. apply in_files in F.
    destruct (files_in is) as [|g [|g' fs]]; [destruct F| |cbn in L; lia]. destruct F as [->|[]]. cbn [hd_error] in H. unfold Check.run in H.
    destruct (runIncludes G (includes_of is) (st_init (options_of is))) as [s0| | |]; try discriminate H. cbn [bind] in H.
    destruct (g_fuel G) as [|n]; cbn [includeFile bind] in H; [discriminate H|]. rewrite NF in H. discriminate H.
  - destruct (main_stops G tr stdin args is I R) as (pre & i & post & _ & _ & _ & M). destruct i; try contradiction; try (rewrite M in H; discriminate H);
      destruct M as [_ M]; rewrite M in H; discriminate H.
Qed.
