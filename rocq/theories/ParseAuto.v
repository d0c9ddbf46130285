(** * The parser as an automaton that reads one token at a time

    The functions of [ModelParse] read tokens in bunches and may be interrupted
    at several places.  Here one step of the parser is described for a single token,
    and it is shown that running it gives the results of the functions of [ModelParse]. *)

From Verif Require Import Base ModelSyntax ModelCommand ModelLex ModelParse.

Definition is_comment (t : token) : bool := match t with TComment _ => true | _ => false end.

Section Auto.
Variable A : Type.
Variable scope : symb -> tctx A -> A.
Local Notation tm := (pterm A).

(** ** Terms *)
Inductive tout : Type :=
| TNext (st : tstate A) (stk : list (cont A))
| TDone (t : tm) (stk : list (cont A))
| TErr (e : term_error) (stk : list (cont A)).

Definition step_aterm (b : list str) (x : option str) (app : tm) (stk : list (cont A)) (tok : token) : tout :=
  match tok with
  | TSymb s => TNext (SATerm x (pt_push app (go scope s (MkTctx b stk)))) stk
  | TArrow => TNext SInit (CProd x app :: stk)
  | TFatArrow =>
      match x with
      | None => TErr AnonymousLambda stk
      | Some x => TNext SInit (CAbst x (Some app) :: stk)
      end
  | TLPar => TNext SInit (CLPar x (Some app) :: stk)
  | _ =>
      match x with
      | Some _ => TErr AbstWithoutRhs stk
      | None =>
          let '(lpar, t, stk) := reduce app stk in
          match lpar with
          | Some (x, oapp) =>
              match tok with
              | TRPar => TNext (SATerm x (match oapp with None => t | Some app => pt_push app t end)) stk
              | _ => TErr UnclosedLPar stk
              end
          | None => TDone t stk
          end
      end
  end.

Definition step_varof (b : list str) (v : str) (stk : list (cont A)) (tok : token) : tout :=
  match tok with
  | TSymb s => TNext (SATerm (Some v) (go scope s (MkTctx b stk))) stk
  | TLPar => TNext SInit (CLPar (Some v) None :: stk)
  | _ => TErr ExpectedIdentOrLPar stk
  end.

Definition step_symb (b : list str) (s : str) (stk : list (cont A)) (tok : token) : tout :=
  match tok with
  | TFatArrow => TNext SInit (CAbst s None :: stk)
  | TColon => TNext (SVarOf s) stk
  | _ => step_aterm b None (go scope (symb_new s) (MkTctx b stk)) stk tok
  end.

Definition step_init (b : list str) (stk : list (cont A)) (tok : token) : tout :=
  match tok with
  | TSymb s =>
      match sy_path s with
      | [] => TNext (SSymb (sy_name s)) stk
      | _ :: _ => TNext (SATerm None (go scope s (MkTctx b stk))) stk
      end
  | TLPar => TNext SInit (CLPar None None :: stk)
  | _ => TErr ExpectedIdentOrLPar stk
  end.

Definition tstep (b : list str) (st : tstate A) (stk : list (cont A)) (tok : token) : tout :=
  match st with
  | SInit => step_init b stk tok
  | SSymb s => step_symb b s stk tok
  | SVarOf v => step_varof b v stk tok
  | SATerm x app => step_aterm b x app stk tok
  end.

Fixpoint trun (b : list str) (st : tstate A) (stk : list (cont A)) (toks : list token)
  : res term_error (tret A) * tctx A * list token :=
  match toks with
  | [] => (Ok (st, None), MkTctx b stk, [])
  | tok :: toks =>
      if is_comment tok then (Ok (st, Some tok), MkTctx b stk, toks)
      else
        match tstep b st stk tok with
        | TNext st stk => trun b st stk toks
        | TDone t stk => (Ok (SATerm None t, Some tok), MkTctx b stk, toks)
        | TErr e stk => (Err e, MkTctx b stk, toks)
        end
  end.

Definition bind_init (n : nat) (r : tloop A) : res term_error (tret A) * tctx A * list token :=
  let '(r, ctx, iter) := r in
  match r with
  | Ok None => tinit scope n ctx iter
  | Ok (Some ret) => (Ok ret, ctx, iter)
  | Err e => (Err e, ctx, iter)
  | Panic => (Panic, ctx, iter)
  | Fuel => (Fuel, ctx, iter)
  end.

Lemma symb_new_name s : sy_path s = [] -> symb_new (sy_name s) = s.
Proof. destruct s as [p n]. cbn. intros ->. reflexivity. Qed.

Lemma run_aux k :
  (forall it n b stk, length it <= k -> length it < n ->
     tinit scope n (MkTctx b stk) it = trun b SInit stk it)
  /\ (forall it n x app b stk, length it <= S k -> length it <= n ->
     bind_init n (aterm scope x app (MkTctx b stk) it) = trun b (SATerm x app) stk it).
Proof.
  induction k as [|k [IHi IHa]].
  - assert (Hi : forall it n b stk, length it <= 0 -> length it < n ->
      tinit scope n (MkTctx b stk) it = trun b SInit stk it).
    { intros [|t it] n b stk H1 H2; cbn in H1; [|lia]. destruct n; [cbn in H2; lia|]. reflexivity. }
    split; [exact Hi|].
    intros it; induction it as [|t it IH]; intros n x app b stk H1 H2; [reflexivity|].
    cbn [length] in *. cbn [trun is_comment].
    destruct t; cbn [aterm bind_init tstep step_aterm tc_stack tc_bound tc_push];
      try reflexivity; try (apply IH; lia); try (apply Hi; lia);
      try (destruct x as [x|]; [first [reflexivity | apply Hi; lia]|];
           try reflexivity;
           destruct (reduce app stk) as [[[[x2 oapp]|] t2] stk2]; first [reflexivity | apply IH; lia]).
  - assert (Hi : forall it n b stk, length it <= S k -> length it < n ->
      tinit scope n (MkTctx b stk) it = trun b SInit stk it).
    { intros [|t it] n b stk H1 H2; (destruct n; [cbn in H2; lia|]); [reflexivity|].
      cbn [length] in *. cbn [trun is_comment].
      destruct t as [ | | | | | | | | | | | | | | | s | o | ]; cbn [tinit tstep step_init]; try reflexivity.
      - apply IHi; lia.
      - change (match symb_state scope s (MkTctx b stk) it with
                | (r, ctx, iter) => bind_init n (r, ctx, iter)
                end = match (match sy_path s with
                             | [] => TNext (SSymb (sy_name s)) stk
                             | _ :: _ => TNext (SATerm None (go scope s (MkTctx b stk))) stk
                             end) with
                      | TNext st stk => trun b st stk it
                      | TDone t stk => (Ok (SATerm None t, Some (TSymb s)), MkTctx b stk, it)
                      | TErr e stk => (Err e, MkTctx b stk, it)
                      end).
        unfold symb_state.
        destruct (sy_path s) as [|p0 ps] eqn:Ep.
        + destruct it as [|t2 it]; [reflexivity|]. cbn [length] in *.
          assert (HA : (let '(r, ctx, iter) := aterm scope None (go scope s (MkTctx b stk)) (MkTctx b stk) (t2 :: it) in
                       bind_init n (r, ctx, iter))
                    = trun b (SATerm None (go scope s (MkTctx b stk))) stk (t2 :: it)).
          { rewrite <- (IHa (t2 :: it) n); [|cbn [length]; lia|cbn [length]; lia].
            destruct (aterm scope None (go scope s (MkTctx b stk)) (MkTctx b stk) (t2 :: it)) as [[r c] i].
            reflexivity. }
          cbn [trun]. rewrite <- (symb_new_name s Ep) in HA.
          destruct t2 as [ | | | | | | | | | | | | | | | s2 | o | ]; cbn [is_comment tstep step_symb];
            try reflexivity;
            try (rewrite <- (symb_new_name s Ep) at 1; exact HA).
          * (* colon *)
            destruct it as [|t3 it]; [reflexivity|]. cbn [length] in *. cbn [trun].
            destruct t3 as [ | | | | | | | | | | | | | | | s3 | o | ]; cbn [varof is_comment tstep step_varof];
              try reflexivity; try (apply IHi; lia).
            rewrite <- (IHa it n); [|lia|lia].
            destruct (aterm scope _ _ _ it) as [[r c] i]. reflexivity.
          * (* fat arrow *) apply IHi; lia.
        + rewrite <- (IHa it n); [|lia|lia].
          destruct (aterm scope _ _ _ it) as [[r c] i]. reflexivity. }
    split; [exact Hi|].
    intros it; induction it as [|t it IH]; intros n x app b stk H1 H2; [reflexivity|].
    cbn [length] in *. cbn [trun is_comment].
    destruct t; cbn [aterm bind_init tstep step_aterm tc_stack tc_bound tc_push];
      try reflexivity; try (apply IH; lia); try (apply Hi; lia);
      try (destruct x as [x|]; [first [reflexivity | apply Hi; lia]|];
           try reflexivity;
           destruct (reduce app stk) as [[[[x2 oapp]|] t2] stk2]; first [reflexivity | apply IH; lia]).
Qed.

Lemma init_run it n b stk : length it < n -> tinit scope n (MkTctx b stk) it = trun b SInit stk it.
Proof. intros H. apply (proj1 (run_aux (length it))); lia. Qed.
Lemma aterm_run it n x app b stk : length it <= n ->
  bind_init n (aterm scope x app (MkTctx b stk) it) = trun b (SATerm x app) stk it.
Proof. intros H. apply (proj2 (run_aux (length it))); lia. Qed.

(** More fuel than needed makes no difference, so the fuel may depend on the rest of the input. *)
Lemma bind_init_fuel r n it : (let '(_, _, i) := r in length i < n /\ length i < it) ->
  bind_init n r = bind_init it r.
Proof.
  destruct r as [[r [b stk]] i]. intros [H1 H2]. cbn. destruct r as [[?|]| | |]; try reflexivity.
  rewrite !init_run by lia. reflexivity.
Qed.

Lemma aterm_shorter it : forall x app ctx,
  let '(r, _, i) := aterm scope x app ctx it in
  length i <= length it /\ (r = Ok None -> length i < length it).
Proof.
  induction it as [|t it IH]; intros x app ctx; cbn [aterm].
  - split; [reflexivity|discriminate].
  - assert (IH' : forall x app ctx, let '(r, _, i) := aterm scope x app ctx it in
        length i <= length (t :: it) /\ (r = Ok None -> length i < length (t :: it))).
    { intros x0 a0 c0. specialize (IH x0 a0 c0). destruct (aterm scope x0 a0 c0 it) as [[r c] i].
      cbn [length]. split; [lia|]. intros E. specialize (proj2 IH E). lia. }
    destruct t; cbn [length];
      repeat match goal with
             | |- context [match ?o with Some _ => _ | None => _ end] => destruct o
             | |- context [reduce ?a ?b] => destruct (reduce a b) as [[[[? ?]|] ?] ?]
             | |- _ => apply IH'
             | |- _ /\ _ => split; [lia|intros; first [discriminate|lia]]
             end.
Qed.

Lemma tparse_run st b stk it :
  tparse scope st (MkTctx b stk) it = trun b st stk it.
Proof.
  assert (HA : forall x app it, (let '(r, ctx, iter) := aterm scope x app (MkTctx b stk) it in
             bind_init (S (length iter)) (r, ctx, iter)) = trun b (SATerm x app) stk it).
  { intros x app it0. rewrite <- (aterm_run it0 (length it0)) by lia.
    pose proof (aterm_shorter it0 x app (MkTctx b stk)) as H.
    destruct (aterm scope x app (MkTctx b stk) it0) as [[r [b' stk']] i].
    destruct r as [[?|]| | |]; try reflexivity. cbn [bind_init].
    specialize (proj2 H eq_refl). intros Hl. rewrite !init_run by lia. reflexivity. }
  assert (HI : forall stk it n, n = S (length it) -> bind_init n (Ok None, MkTctx b stk, it) = trun b SInit stk it).
  { intros stk0 it0 n ->. cbn [bind_init]. apply init_run. lia. }
  assert (HV : forall v it, (let '(r, ctx, iter) := varof scope v (MkTctx b stk) it in
             bind_init (S (length iter)) (r, ctx, iter)) = trun b (SVarOf v) stk it).
  { intros v [|t3 it0]; [reflexivity|]. cbn [trun].
    destruct t3 as [ | | | | | | | | | | | | | | | s3 | o | ]; cbn [varof is_comment tstep step_varof];
      try reflexivity; try (apply HI; reflexivity). apply HA. }
  unfold tparse.
  change (match resume scope st (MkTctx b stk) it with
          | (r, ctx, iter) => bind_init (S (length iter)) (r, ctx, iter)
          end = trun b st stk it).
  destruct st as [|s|v|x app]; cbn [resume].
  - apply HI; reflexivity.
  - unfold symb_state. cbn [symb_new sy_path sy_name].
    destruct it as [|t2 it]; [reflexivity|]. specialize (HA None (go scope (symb_new s) (MkTctx b stk)) (t2 :: it)).
    cbn [trun].
    destruct t2 as [ | | | | | | | | | | | | | | | s2 | o | ]; cbn [is_comment tstep step_symb];
      try reflexivity; try exact HA; try (apply HI; reflexivity); try apply HV.
  - apply HV.
  - apply HA.
Qed.

(** ** Commands *)
Inductive sout : Type :=
| SNext (st : pstate A) (ctx : tctx A)
| SEmit (c : pcommand tm) (ctx : tctx A)
| SErr (e : parse_error) (ctx : tctx A)
| SPanic (ctx : tctx A).

Definition cmd_out (r : res cmd_error (cstate tm)) (ctx : tctx A) : sout :=
  match r with
  | Ok (CCommand c) => SEmit c ctx
  | Ok cmd => SNext (MkPState cmd SInit) ctx
  | Err e => SErr (EParseCmd e) ctx
  | Panic | Fuel => SPanic ctx
  end.

(** One step on a token that is not [TComment]. *)
Definition sstep (st : pstate A) (ctx : tctx A) (tok : token) : sout :=
  if expects_term (ps_cmd st) then
    match tstep (tc_bound ctx) (ps_trm st) (tc_stack ctx) tok with
    | TNext trm stk => SNext (MkPState (ps_cmd st) trm) (MkTctx (tc_bound ctx) stk)
    | TDone t stk =>
        let '(r, b) := apply (ps_cmd st) (tc_bound ctx) t tok in
        cmd_out r (MkTctx b stk)
    | TErr e stk => SErr (EParseTerm e) (MkTctx (tc_bound ctx) stk)
    end
  else
    let '(r, b) := cparse (ps_cmd st) (tc_bound ctx) tok in
    cmd_out r (MkTctx b (tc_stack ctx)).

(** Run until a command has been read, an error occurs, an open comment is found or the tokens end. *)
Inductive rout : Type :=
| RState (st : pstate A) (ctx : tctx A)
| RCmd (c : pcommand tm) (ctx : tctx A)
| RErr (e : parse_error) (ctx : tctx A)
| RPanic (ctx : tctx A).

Fixpoint srun (st : pstate A) (ctx : tctx A) (toks : list token) : rout * list token :=
  match toks with
  | [] => (RState st ctx, [])
  | tok :: toks =>
      match tok with
      | TComment 0 => srun st ctx toks
      | TComment (S _) => (RState st ctx, toks)
      | _ =>
          match sstep st ctx tok with
          | SNext st ctx => srun st ctx toks
          | SEmit c ctx => (RCmd c ctx, toks)
          | SErr e ctx => (RErr e ctx, toks)
          | SPanic ctx => (RPanic ctx, toks)
          end
      end
  end.

(** Run over all tokens of a line, collecting commands. *)
Fixpoint lrun (st : pstate A) (ctx : tctx A) (buf : list (pcommand tm)) (open : nat) (toks : list token)
  : res parse_error (pstate A * nat) * tctx A * list (pcommand tm) :=
  match toks with
  | [] => (Ok (st, open), ctx, buf)
  | tok :: toks =>
      match tok with
      | TComment o => lrun st ctx buf o toks
      | _ =>
          match sstep st ctx tok with
          | SNext st ctx => lrun st ctx buf 0 toks
          | SEmit c ctx => lrun pstate_default ctx (c :: buf) 0 toks
          | SErr e ctx => (Err e, ctx, buf)
          | SPanic ctx => (Panic, ctx, buf)
          end
      end
  end.

Definition not_command (c : cstate tm) : Prop := match c with CCommand _ => False | _ => True end.

(** States between tokens: the term parser is only active if a term is expected, and the
    command is not complete. *)
Definition ok_pstate (st : pstate A) : Prop :=
  not_command (ps_cmd st) /\ (expects_term (ps_cmd st) = false -> ps_trm st = SInit).

Lemma ok_default : ok_pstate pstate_default.
Proof. split; cbn; auto. Qed.

Lemma cmd_out_ok r ctx st ctx' : cmd_out r ctx = SNext st ctx' -> ok_pstate st.
Proof.
  destruct r as [c| | |]; cbn; try discriminate.
  destruct c; intros [= <- _]; split; cbn; auto.
Qed.

Lemma sstep_ok st ctx tok st' ctx' : ok_pstate st -> sstep st ctx tok = SNext st' ctx' -> ok_pstate st'.
Proof.
  intros [H1 H2]. unfold sstep. destruct (expects_term (ps_cmd st)) eqn:E.
  - destruct (tstep _ _ _ _) as [trm stk|t stk|e stk].
    + intros [= <- _]. split; cbn; [exact H1|]. rewrite E. discriminate.
    + destruct (apply _ _ _ _) as [r b]. apply cmd_out_ok.
    + discriminate.
  - destruct (cparse _ _ _) as [r b]. apply cmd_out_ok.
Qed.

Lemma cparse_nofuel (st : cstate tm) b tok : fst (cparse st b tok) <> Fuel.
Proof.
  destruct st as [|p|p s c o|p s c x|p s c ty|c x|c|c lhs| |cmd]; destruct tok as [ | | | | | | | | | | | | | | |s1|o1|];
    cbn; try discriminate; try (destruct (sy_path s1); cbn; discriminate);
    try (destruct p as [[| |]|]; destruct o as [[|]|]; cbn; try discriminate; destruct (sy_path s1); cbn; discriminate);
    try (destruct x as [[? [|]]|]; cbn; try discriminate; destruct (sy_path s1); cbn; discriminate).
Qed.

Lemma close_nofuel (st : cstate tm) b t : fst (close st b t) <> Fuel.
Proof.
  destruct st as [|p|p s c o|p s c x|p s c ty|c x|c|c lhs| |cmd]; cbn; try discriminate.
  - destruct o as [[|]|]; destruct p as [[| |]|]; cbn; discriminate.
  - destruct p as [[| |]|]; cbn; discriminate.
Qed.

Lemma apply_nofuel (st : cstate tm) b t tok : fst (apply st b t tok) <> Fuel.
Proof.
  assert (HC : fst (let '(r, b') := close st b t in (res_map CCommand r, b')) <> Fuel).
  { pose proof (close_nofuel st b t) as H. destruct (close st b t) as [r b']. cbn in *.
    destruct r; cbn; congruence. }
  destruct st as [|p|p s c o|p s c x|p s c ty|c x|c|c lhs| |cmd]; destruct tok as [ | | | | | | | | | | | | | | |s1|o1|];
    try discriminate; try exact HC;
    try (destruct p as [[| |]|]; destruct o as [[|]|]; try discriminate; exact HC);
    try (destruct x as [[? [|]]|]; try discriminate; exact HC).
  destruct b; discriminate.
Qed.

(** [feed] in terms of [trun] *)
Definition feed_post (cmd : cstate tm) (r : res term_error (tret A) * tctx A * list token)
  : res parse_error (pstate A * nat) * tctx A * list token :=
  let '(r, ctx, iter) := r in
  match r with
  | Ok (trm, None) => (Ok (MkPState cmd trm, 0), ctx, iter)
  | Ok (trm, Some (TComment o)) => (Ok (MkPState cmd trm, o), ctx, iter)
  | Ok (SATerm None t, Some tok) =>
      let '(r, bound) := apply cmd (tc_bound ctx) t tok in
      let ctx := MkTctx bound (tc_stack ctx) in
      match r with
      | Ok cmd => (Ok (MkPState cmd SInit, 0), ctx, iter)
      | Err e => (Err (EParseCmd e), ctx, iter)
      | Panic => (Panic, ctx, iter)
      | Fuel => (Fuel, ctx, iter)
      end
  | Ok (_, Some _) => (Panic, ctx, iter)
  | Err e => (Err (EParseTerm e), ctx, iter)
  | Panic => (Panic, ctx, iter)
  | Fuel => (Fuel, ctx, iter)
  end.

Lemma feed_post_none cmd trm ctx it :
  feed_post cmd (Ok (trm, None), ctx, it) = (Ok (MkPState cmd trm, 0), ctx, it).
Proof. destruct trm as [| | |[x|] app]; reflexivity. Qed.
Lemma feed_post_comment cmd trm o ctx it :
  feed_post cmd (Ok (trm, Some (TComment o)), ctx, it) = (Ok (MkPState cmd trm, o), ctx, it).
Proof. destruct trm as [| | |[x|] app]; reflexivity. Qed.

Lemma feed_term st ctx tok iter : expects_term (ps_cmd st) = true ->
  feed scope st ctx tok iter = feed_post (ps_cmd st) (trun (tc_bound ctx) (ps_trm st) (tc_stack ctx) (tok :: iter)).
Proof.
  intros E. unfold feed. rewrite E. destruct ctx as [b stk]. rewrite tparse_run. reflexivity.
Qed.

(** Generic loop: what [strict_loop] and [line_loop] have in common. *)
Definition strict_k (n : nat) (r : res parse_error (pstate A * nat) * tctx A * list token)
  : item A * strict A :=
  let '(r, ctx, iter) := r in
  let p := MkStrict iter ctx in
  match r with
  | Err e => (Err e, p)
  | Ok (st, open) =>
      match ps_cmd st with
      | CCommand cmd => (Ok (Some cmd), p)
      | _ => if 0 <? open then (Err ExpectedInput, p) else strict_loop scope n true st p
      end
  | Panic => (Panic, p)
  | Fuel => (Fuel, p)
  end.

Definition strict_of (r : rout * list token) : item A * strict A :=
  let '(r, rest) := r in
  match r with
  | RState _ ctx => (Err ExpectedInput, MkStrict rest ctx)
  | RCmd c ctx => (Ok (Some c), MkStrict rest ctx)
  | RErr e ctx => (Err e, MkStrict rest ctx)
  | RPanic ctx => (Panic, MkStrict rest ctx)
  end.

(** the result of a single token, continued *)
Definition s_then (o : sout) (toks : list token) : rout * list token :=
  match o with
  | SNext st ctx => srun st ctx toks
  | SEmit c ctx => (RCmd c ctx, toks)
  | SErr e ctx => (RErr e ctx, toks)
  | SPanic ctx => (RPanic ctx, toks)
  end.
Lemma srun_cons st ctx tok toks : is_comment tok = false ->
  srun st ctx (tok :: toks) = s_then (sstep st ctx tok) toks.
Proof. destruct tok; try discriminate; reflexivity. Qed.

Definition l_then (o : sout) (buf : list (pcommand tm)) (toks : list token) :=
  match o with
  | SNext st ctx => lrun st ctx buf 0 toks
  | SEmit c ctx => lrun pstate_default ctx (c :: buf) 0 toks
  | SErr e ctx => (Err e, ctx, buf)
  | SPanic ctx => (Panic, ctx, buf)
  end.
Lemma lrun_cons st ctx buf o tok toks : is_comment tok = false ->
  lrun st ctx buf o (tok :: toks) = l_then (sstep st ctx tok) buf toks.
Proof. destruct tok; try discriminate; reflexivity. Qed.

Lemma strict_k_out n r ctx rest :
  (forall st, ok_pstate st -> strict_loop scope n true st (MkStrict rest ctx) = strict_of (srun st ctx rest)) ->
  r <> Fuel ->
  strict_k n (match r with
              | Ok cmd => (Ok (MkPState cmd SInit, 0), ctx, rest)
              | Err e => (Err (EParseCmd e), ctx, rest)
              | Panic => (Panic, ctx, rest)
              | Fuel => (Fuel, ctx, rest)
              end) = strict_of (s_then (cmd_out r ctx) rest).
Proof.
  intros H HF. destruct r as [cmd|e| |]; try reflexivity; [|congruence].
  destruct cmd; cbn [strict_k ps_cmd cmd_out s_then]; try reflexivity;
    change (0 <? 0) with false; cbn iota; apply H; split; cbn; auto.
Qed.

Lemma strict_loop_S n seen st p :
  strict_loop scope (S n) seen st p =
  match st_toks p with
  | [] => (if seen then Err ExpectedInput else Ok None, p)
  | tok :: iter => strict_k n (feed scope st (st_ctx p) tok iter)
  end.
Proof. reflexivity. Qed.

Lemma comment_pos o : (0 <? o) = match o with 0 => false | S _ => true end.
Proof. destruct o; reflexivity. Qed.

Lemma strict_loop_run_aux k : forall toks n seen st ctx,
  length toks <= k -> length toks < n -> ok_pstate st -> (seen = true \/ toks <> []) ->
  strict_loop scope n seen st (MkStrict toks ctx) = strict_of (srun st ctx toks).
Proof.
  induction k as [|k IH]; intros toks n seen st ctx H1 H2 H3 H4.
  - destruct toks; [|cbn in H1; lia]. destruct H4 as [->|H4]; [|congruence].
    destruct n; [cbn in H2; lia|]. reflexivity.
  - destruct n; [lia|]. destruct toks as [|tok toks].
    { destruct H4 as [->|H4]; [|congruence]. reflexivity. }
    rewrite strict_loop_S. cbn [st_toks st_ctx]. cbn [length] in *.
    destruct (expects_term (ps_cmd st)) eqn:E.
    + rewrite feed_term by exact E.
      (* inner induction *)
      assert (HI : forall toks' trm stk, length toks' <= S k -> length toks' <= n ->
        let st' := MkPState (ps_cmd st) trm in
        let ctx' := MkTctx (tc_bound ctx) stk in
        n <> 0 ->
        strict_k n (feed_post (ps_cmd st) (trun (tc_bound ctx) trm stk toks')) = strict_of (srun st' ctx' toks')).
      { intros toks'. induction toks' as [|t toks' IHt]; intros trm stk L1 L2 st' ctx' Hn.
        - cbn [trun]. rewrite feed_post_none. cbn [strict_k ps_cmd]. change (0 <? 0) with false. cbn iota.
          destruct n as [|n]; [congruence|].
          destruct (ps_cmd st) eqn:Ec; try (cbn in E; discriminate); reflexivity.
        - cbn [length] in *.
          destruct (is_comment t) eqn:Et.
          + destruct t as [ | | | | | | | | | | | | | | |s1|o1|]; try discriminate.
            cbn [trun is_comment]. rewrite feed_post_comment. cbn [strict_k ps_cmd].
            rewrite comment_pos. cbn [srun].
            destruct (ps_cmd st) eqn:Ec; try (cbn in E; discriminate);
              (destruct o1 as [|o1]; [|reflexivity];
               apply IH; [lia| |split; cbn; [trivial|cbn in E; congruence]|left; reflexivity];
               lia).
          + rewrite srun_cons by exact Et. cbn [trun]. rewrite Et.
            unfold sstep. cbn [ps_cmd ps_trm tc_bound tc_stack st' ctx']. rewrite E.
            destruct (tstep (tc_bound ctx) trm stk t) as [trm2 stk2|t2 stk2|e stk2].
            * apply IHt; [lia|lia|exact Hn].
            * cbn [feed_post]. destruct t as [ | | | | | | | | | | | | | | |s1|o1|]; try discriminate;
                cbn [tc_bound tc_stack];
                match goal with |- context [apply ?a ?b ?c ?d] =>
                  pose proof (apply_nofuel a b c d) as Hf; destruct (apply a b c d) as [r b'] end;
                (apply strict_k_out; [intros st2 Hst2; apply IH; [lia|lia|exact Hst2|left; reflexivity]|exact Hf]).
            * reflexivity. }
      rewrite HI; [|cbn [length]; lia|cbn [length]; lia|lia].
      f_equal. destruct st, ctx. reflexivity.
    + assert (Etrm : ps_trm st = SInit) by (apply H3; exact E).
      unfold feed. rewrite E, Etrm.
      destruct (is_comment tok) eqn:Et.
      * destruct tok as [ | | | | | | | | | | | | | | |s1|o1|]; try discriminate.
        cbn [strict_k srun]. rewrite comment_pos.
        destruct H3 as [H3 H3'].
        destruct (ps_cmd st) eqn:Ec; try (cbn in H3; contradiction);
          (destruct o1 as [|o1]; [|reflexivity];
           apply IH; [lia|lia|split; rewrite Ec; cbn; [trivial|intros _; exact Etrm]|left; reflexivity]).
      * rewrite srun_cons by exact Et. unfold sstep. rewrite E.
        pose proof (cparse_nofuel (ps_cmd st) (tc_bound ctx) tok) as Hf.
        destruct tok as [ | | | | | | | | | | | | | | |s1|o1|]; try discriminate;
          match goal with |- context [cparse ?a ?b ?d] => destruct (cparse a b d) as [r b'] end;
          (apply strict_k_out; [intros st2 Hst2; apply IH; [lia|lia|exact Hst2|left; reflexivity]|exact Hf]).
Qed.

Lemma strict_loop_run toks st ctx n seen : length toks < n -> ok_pstate st -> (seen = true \/ toks <> []) ->
  strict_loop scope n seen st (MkStrict toks ctx) = strict_of (srun st ctx toks).
Proof. intros. apply strict_loop_run_aux with (k := length toks); auto. Qed.

Lemma strict_next_run toks ctx :
  strict_next scope (MkStrict toks ctx) =
  match toks with
  | [] => (Ok None, MkStrict [] ctx)
  | _ => strict_of (srun pstate_default ctx toks)
  end.
Proof.
  unfold strict_next. destruct toks as [|tok toks]; [reflexivity|].
  apply strict_loop_run; [cbn [st_toks]; lia|exact ok_default|right; discriminate].
Qed.

Definition line_k (n : nat) (buf : list (pcommand tm)) (r : res parse_error (pstate A * nat) * tctx A * list token)
  : res parse_error (pstate A * nat) * tctx A * list (pcommand tm) :=
  let '(r, ctx, iter) := r in
  match r with
  | Err e => (Err e, ctx, buf)
  | Ok (st, open) =>
      match ps_cmd st with
      | CCommand cmd => line_loop scope n pstate_default ctx (cmd :: buf) open iter
      | _ => line_loop scope n st ctx buf open iter
      end
  | Panic => (Panic, ctx, buf)
  | Fuel => (Fuel, ctx, buf)
  end.
Lemma line_loop_S n st ctx buf open toks :
  line_loop scope (S n) st ctx buf open toks =
  match toks with
  | [] => (Ok (st, open), ctx, buf)
  | tok :: iter => line_k n buf (feed scope st ctx tok iter)
  end.
Proof. reflexivity. Qed.

Lemma line_k_out n buf r ctx rest :
  (forall st buf, ok_pstate st -> line_loop scope n st ctx buf 0 rest = lrun st ctx buf 0 rest) ->
  r <> Fuel ->
  line_k n buf (match r with
              | Ok cmd => (Ok (MkPState cmd SInit, 0), ctx, rest)
              | Err e => (Err (EParseCmd e), ctx, rest)
              | Panic => (Panic, ctx, rest)
              | Fuel => (Fuel, ctx, rest)
              end) = l_then (cmd_out r ctx) buf rest.
Proof.
  intros H HF. destruct r as [cmd|e| |]; try reflexivity; [|congruence].
  destruct cmd; cbn [line_k ps_cmd cmd_out l_then]; try (apply H; split; cbn; auto).
Qed.

Lemma line_loop_run_aux k : forall toks n st ctx buf open,
  length toks <= k -> length toks < n -> ok_pstate st ->
  line_loop scope n st ctx buf open toks = lrun st ctx buf open toks.
Proof.
  induction k as [|k IH]; intros toks n st ctx buf open H1 H2 H3.
  - destruct toks; [|cbn in H1; lia]. destruct n; [cbn in H2; lia|]. reflexivity.
  - destruct n; [lia|]. destruct toks as [|tok toks]; [reflexivity|].
    rewrite line_loop_S. cbn [length] in *.
    destruct (expects_term (ps_cmd st)) eqn:E.
    + rewrite feed_term by exact E.
      assert (HI : forall toks' trm stk open, length toks' <= S k -> length toks' <= n -> toks' <> [] \/ open = 0 ->
        let st' := MkPState (ps_cmd st) trm in
        let ctx' := MkTctx (tc_bound ctx) stk in
        n <> 0 ->
        line_k n buf (feed_post (ps_cmd st) (trun (tc_bound ctx) trm stk toks')) = lrun st' ctx' buf open toks').
      { intros toks'. induction toks' as [|t toks' IHt]; intros trm stk o L1 L2 Ho st' ctx' Hn.
        - destruct Ho as [Ho| ->]; [congruence|].
          cbn [trun]. rewrite feed_post_none. cbn [line_k ps_cmd].
          destruct n as [|n]; [congruence|].
          destruct (ps_cmd st) eqn:Ec; try (cbn in E; discriminate); reflexivity.
        - cbn [length] in *.
          destruct (is_comment t) eqn:Et.
          + destruct t as [ | | | | | | | | | | | | | | |s1|o1|]; try discriminate.
            cbn [trun is_comment]. rewrite feed_post_comment. cbn [line_k ps_cmd lrun].
            destruct (ps_cmd st) eqn:Ec; try (cbn in E; discriminate);
               (apply IH; [lia| |split; cbn; [trivial|cbn in E; congruence]]; lia).
          + rewrite lrun_cons by exact Et. cbn [trun]. rewrite Et.
            unfold sstep. cbn [ps_cmd ps_trm tc_bound tc_stack st' ctx']. rewrite E.
            destruct (tstep (tc_bound ctx) trm stk t) as [trm2 stk2|t2 stk2|e stk2].
            * apply IHt; [lia|lia|right; reflexivity|exact Hn].
            * cbn [feed_post]. destruct t as [ | | | | | | | | | | | | | | |s1|o1|]; try discriminate;
                cbn [tc_bound tc_stack];
                match goal with |- context [apply ?a ?b ?c ?d] =>
                  pose proof (apply_nofuel a b c d) as Hf; destruct (apply a b c d) as [r b'] end;
                (apply line_k_out; [intros st2 buf2 Hst2; apply IH; [lia|lia|exact Hst2]|exact Hf]).
            * reflexivity. }
      rewrite HI with (open := open); [|cbn [length]; lia|cbn [length]; lia|left; discriminate|lia].
      f_equal. destruct st, ctx. reflexivity. destruct ctx; reflexivity.
    + assert (Etrm : ps_trm st = SInit) by (apply H3; exact E).
      unfold feed. rewrite E, Etrm.
      destruct (is_comment tok) eqn:Et.
      * destruct tok as [ | | | | | | | | | | | | | | |s1|o1|]; try discriminate.
        cbn [line_k lrun].
        destruct H3 as [H3 H3'].
        destruct (ps_cmd st) eqn:Ec; try (cbn in H3; contradiction);
          (apply IH; [lia|lia|split; rewrite Ec; cbn; [trivial|intros _; exact Etrm]]).
      * rewrite lrun_cons by exact Et. unfold sstep. rewrite E.
        pose proof (cparse_nofuel (ps_cmd st) (tc_bound ctx) tok) as Hf.
        destruct tok as [ | | | | | | | | | | | | | | |s1|o1|]; try discriminate;
          match goal with |- context [cparse ?a ?b ?d] => destruct (cparse a b d) as [r b'] end;
          (apply line_k_out; [intros st2 buf2 Hst2; apply IH; [lia|lia|exact Hst2]|exact Hf]).
Qed.

Lemma feed_line_run st ctx buf open toks : ok_pstate st ->
  feed_line scope st ctx buf open toks = lrun st ctx buf open toks.
Proof. intros H. unfold feed_line. apply line_loop_run_aux with (k := length toks); auto. Qed.

(** ** No panics *)

(** States the command parser can be in, with the variables bound at that point. *)
Definition safe_cstate (c : cstate tm) (b : list str) : Prop :=
  match c with
  | CArgs p _ _ (Some OEq) => p = Some PDef
  | COfEq p _ _ _ => p = Some PDef \/ p = Some PThm
  | CRuleL _ => b <> []
  | CCommand _ => False
  | _ => True
  end.
Definition safe_pstate (st : pstate A) (ctx : tctx A) : Prop :=
  ok_pstate st /\ safe_cstate (ps_cmd st) (tc_bound ctx).

Lemma safe_default ctx : safe_pstate pstate_default ctx.
Proof. split; [exact ok_default|exact I]. Qed.

(** Result of [cparse] and [apply]: no panic; the new state is safe (or a command). *)
Definition safe_cres (r : cres tm) : Prop :=
  match fst r with
  | Ok (CCommand _) => True
  | Ok c => safe_cstate c (snd r)
  | Err _ => True
  | Panic | Fuel => False
  end.

Lemma cparse_safe st b tok : safe_cres (cparse st b tok).
Proof.
  destruct st as [|p|p s c o|p s c x|p s c ty|c x|c|c lhs| |cmd]; destruct tok as [ | | | | | | | | | | | | | | |s1|o1|];
    cbn; auto; try (destruct (sy_path s1); cbn; exact I);
    try (destruct p as [[| |]|]; destruct o as [[|]|]; cbn; auto; destruct (sy_path s1); cbn; exact I);
    try (destruct x as [[? [|]]|]; cbn; auto; try discriminate; destruct (sy_path s1); cbn; exact I).
Qed.

Lemma close_safe st b t : safe_cstate st b -> (forall x c, st <> CArgs (Some PThm) x c (Some OOf)) ->
  match fst (close st b t) with Ok _ | Err _ => True | _ => False end.
Proof.
  destruct st as [|p|p s c o|p s c x|p s c ty|c x|c|c lhs| |cmd]; cbn; auto.
  - destruct o as [[|]|]; cbn; auto.
    + destruct p as [[| |]|]; cbn; auto. intros _ H. apply (H s c). reflexivity.
    + intros -> _. exact I.
  - intros [-> | ->] _; exact I.
Qed.

Lemma apply_safe st b t tok : safe_cstate st b -> safe_cres (apply st b t tok).
Proof.
  intros H.
  assert (HC : (forall x c, st <> CArgs (Some PThm) x c (Some OOf)) ->
               safe_cres (let '(r, b') := close st b t in (res_map CCommand r, b'))).
  { intros Hn. pose proof (close_safe st b t H Hn) as Hs. destruct (close st b t) as [r b']. cbn in *.
    unfold safe_cres. cbn. destruct r; cbn; auto. }
  destruct st as [|p|p s c o|p s c x|p s c ty|c x|c|c lhs| |cmd]; destruct tok as [ | | | | | | | | | | | | | | |s1|o1|];
    try exact I; try (apply HC; discriminate);
    try (destruct p as [[| |]|]; destruct o as [[|]|]; try exact I;
         try (cbn in H; discriminate); try (apply HC; discriminate); cbn; auto);
    try (destruct x as [[? [|]]|]; try exact I; try (apply HC; discriminate); cbn; discriminate).
  destruct b as [|j b]; [cbn in H; congruence|exact I].
Qed.

Lemma cmd_out_safe r b stk : safe_cres (r, b) ->
  match cmd_out r (MkTctx b stk) with
  | SNext st ctx => safe_pstate st ctx
  | SPanic _ => False
  | _ => True
  end.
Proof.
  unfold safe_cres. cbn. destruct r as [c| | |]; cbn; auto.
  destruct c; cbn; auto; intros H; (split; [split; cbn; auto|cbn; exact H]).
Qed.

Lemma sstep_safe st ctx tok : safe_pstate st ctx ->
  match sstep st ctx tok with
  | SNext st ctx => safe_pstate st ctx
  | SPanic _ => False
  | _ => True
  end.
Proof.
  intros [H1 H2]. unfold sstep. destruct (expects_term (ps_cmd st)) eqn:E.
  - destruct (tstep _ _ _ _) as [trm stk|t stk|e stk]; auto.
    + split; [|exact H2]. split; cbn; [apply H1|]. rewrite E. discriminate.
    + pose proof (apply_safe (ps_cmd st) (tc_bound ctx) t tok H2) as H.
      destruct (apply _ _ _ _) as [r b]. apply cmd_out_safe. exact H.
  - pose proof (cparse_safe (ps_cmd st) (tc_bound ctx) tok) as H.
    destruct (cparse _ _ _) as [r b]. apply cmd_out_safe. exact H.
Qed.

Lemma srun_safe toks : forall st ctx, safe_pstate st ctx ->
  forall ctx', fst (srun st ctx toks) <> RPanic ctx'.
Proof.
  induction toks as [|tok toks IH]; intros st ctx H ctx'; [discriminate|].
  destruct (is_comment tok) eqn:Et.
  - destruct tok as [ | | | | | | | | | | | | | | |s1|[|o1]|]; try discriminate. cbn [srun]. apply IH; exact H.
  - rewrite srun_cons by exact Et. pose proof (sstep_safe st ctx tok H) as Hs.
    destruct (sstep st ctx tok); cbn [s_then fst]; try discriminate; [apply IH; exact Hs|contradiction].
Qed.

Lemma lrun_safe toks : forall st ctx buf open, safe_pstate st ctx ->
  match lrun st ctx buf open toks with
  | (Ok (st', _), ctx', _) => safe_pstate st' ctx'
  | (Err _, _, _) => True
  | _ => False
  end.
Proof.
  induction toks as [|tok toks IH]; intros st ctx buf open H; [exact H|].
  destruct (is_comment tok) eqn:Et.
  - destruct tok as [ | | | | | | | | | | | | | | |s1|o1|]; try discriminate. cbn [lrun]. apply IH; exact H.
  - rewrite lrun_cons by exact Et. pose proof (sstep_safe st ctx tok H) as Hs.
    destruct (sstep st ctx tok); cbn [l_then];
      [apply IH; exact Hs|apply IH; apply safe_default|exact I|exact Hs].
Qed.

(** ** Progress *)
Lemma srun_shorter toks : forall st ctx, toks <> [] -> length (snd (srun st ctx toks)) < length toks.
Proof.
  induction toks as [|tok toks IH]; intros st ctx H; [congruence|].
  assert (IH' : forall st ctx, length (snd (srun st ctx toks)) < length (tok :: toks)).
  { intros st0 ctx0. destruct toks as [|t toks]; [cbn; lia|].
    assert (Hne : t :: toks <> []) by discriminate.
    specialize (IH st0 ctx0 Hne). cbn [length] in *. lia. }
  destruct (is_comment tok) eqn:Et.
  - destruct tok as [ | | | | | | | | | | | | | | |s1|[|o1]|]; try discriminate; cbn [srun]; [apply IH'|cbn; lia].
  - rewrite srun_cons by exact Et. destruct (sstep st ctx tok); cbn [s_then snd length]; [apply IH'|lia|lia|lia].
Qed.

(** ** Interruptions *)
Lemma lrun_app t1 : forall t2 st ctx buf open,
  lrun st ctx buf open (t1 ++ t2) =
  match lrun st ctx buf open t1 with
  | (Ok (st, open), ctx, buf) => lrun st ctx buf open t2
  | r => r
  end.
Proof.
  induction t1 as [|tok t1 IH]; intros t2 st ctx buf open; [reflexivity|].
  cbn [app]. destruct (is_comment tok) eqn:Et.
  - destruct tok as [ | | | | | | | | | | | | | | |s1|o1|]; try discriminate; cbn [lrun]. apply IH.
  - rewrite !lrun_cons by exact Et. destruct (sstep st ctx tok); cbn [l_then]; try reflexivity; apply IH.
Qed.

Lemma lrun_ok toks : forall st ctx buf open st' open' ctx' buf', ok_pstate st ->
  lrun st ctx buf open toks = (Ok (st', open'), ctx', buf') -> ok_pstate st'.
Proof.
  induction toks as [|tok toks IH]; intros st ctx buf open st' open' ctx' buf' H.
  - cbn. intros [= <- _ _ _]. exact H.
  - destruct (is_comment tok) eqn:Et.
    + destruct tok as [ | | | | | | | | | | | | | | |s1|o1|]; try discriminate; cbn [lrun]. apply IH; exact H.
    + rewrite !lrun_cons by exact Et. destruct (sstep st ctx tok) eqn:Es; cbn [l_then]; try discriminate.
      * apply IH. eapply sstep_ok; eassumption.
      * apply IH. exact ok_default.
Qed.
End Auto.
