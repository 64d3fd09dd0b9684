(** Proofs: long double evaluation, calls. *)
From Coq Require Import ZArith QArith Qreals Reals String Ascii Lia Lra Bool List Sorted.
From Verif Require Import Base AdapterModel RationalModel RationalSpec RealModel RealSpec PolyModel PolySpec ExprModel ExprSpec ExprProofs1 ParserModel CliModel ErrSpec CliSpec CliProofs1 CliProofs3.
Import ListNotations.
Open Scope Z_scope.

(** ** when there is a value *)
Section Ld.
Context (F : fops) (v : list (string * D F)).
Definition known (k : string) : Prop := exists x, mget k v = Some x.
Lemma syms_some m : (forall k, In k (map fst m) -> known k) -> forall acc, exists x, syms_ld F v m acc = Some x.
Proof.
  induction m as [|[k q] m IH]; intros H acc; cbn [syms_ld]; [eauto|]. destruct (H k (or_introl eq_refl)) as [x ->]. apply IH. intros; apply H; now right.
Qed.
Lemma syms_none m : (exists k, In k (map fst m) /\ mget k v = None) -> forall acc, syms_ld F v m acc = None.
Proof.
  induction m as [|[k q] m IH]; intros (k' & I & N) acc; [destruct I|]. cbn [syms_ld]. destruct (mget k v) as [x|] eqn:E; [|reflexivity]. apply IH.
  destruct I as [I|I]; [cbn [fst] in I; congruence|eauto].
Qed.
Lemma terms_some l : (forall k, psymbol k l -> known k) -> forall acc, exists x, terms_ld F v l acc = Some x.
Proof.
  induction l as [|t l IH]; intros H acc; cbn [terms_ld]; [eauto|]. unfold term_ld.
  destruct (syms_some (syms t)) with (acc := d_of_real F (tco t)) as [x ->]; [intros k I; apply H; exists t; split; [now left|exact I]|].
  apply IH. intros k (u & I & T). apply H. exists u. split; [now right|exact T].
Qed.
Lemma terms_none l : (exists k, psymbol k l /\ mget k v = None) -> forall acc, terms_ld F v l acc = None.
Proof.
  induction l as [|t l IH]; intros (k & (u & I & T) & N) acc; [destruct I|]. cbn [terms_ld]. destruct (term_ld F v t) as [x|] eqn:E; [|reflexivity]. apply IH.
  destruct I as [->|I]; [|exists k; split; [exists u; auto|exact N]]. exfalso. unfold term_ld in E. rewrite (syms_none (syms u)) in E by eauto. discriminate.
Qed.
Lemma frac_ld_some f : (forall k, fsymbol k f -> known k) -> exists x, frac_ld F v f = Some x.
Proof.
  intros H. unfold frac_ld, poly_ld. destruct (terms_some (fnum f)) with (acc := d_zero F) as [x ->]; [intros; apply H; now left|].
  destruct (terms_some (fden f)) with (acc := d_zero F) as [y ->]; [intros; apply H; now right|]. eauto.
Qed.
Lemma frac_ld_none f : (exists k, fsymbol k f /\ mget k v = None) -> frac_ld F v f = None.
Proof.
  intros (k & [S|S] & N); unfold frac_ld, poly_ld; [rewrite (terms_none (fnum f)) by eauto; reflexivity|]. rewrite (terms_none (fden f)) by eauto. now destruct (terms_ld F v (fnum f) (d_zero F)).
Qed.
Lemma op_ld c a b : operator c -> exists x, (if Ascii.eqb c "+" then Ok (Some (d_add F a b)) else if Ascii.eqb c "-" then Ok (Some (d_sub F a b)) else if Ascii.eqb c "*" then Ok (Some (d_mul F a b)) else
  if Ascii.eqb c "/" then Ok (Some (d_div F a b)) else if Ascii.eqb c "^" then Ok (Some (d_pow F a b)) else unreachable "") = Ok (Some x).
Proof. intros I. unfold operator in I. cbn [list_ascii_of_string In] in I. destruct I as [<-|[<-|[<-|[<-|[<-|[]]]]]]; cbn [Ascii.eqb Bool.eqb]; eauto. Qed.
Lemma expr_ld_some e : proper e -> (forall k, symbol k e -> known k) -> exists x, expr_ld F v e = Ok (Some x).
Proof.
  induction e as [f|c l IHl r IHr]; intros W H; cbn [expr_ld]; [destruct (frac_ld_some f H) as [x ->]; eauto|]. destruct W as (O & Wl & Wr).
  destruct (IHl Wl) as [a ->]; [intros; apply H; now left|]. destruct (IHr Wr) as [b ->]; [intros; apply H; now right|]. cbn [bind]. exact (op_ld c a b O).
Qed.
Lemma expr_ld_none e : proper e -> (exists k, symbol k e /\ mget k v = None) -> expr_ld F v e = Ok None.
Proof.
  assert (T : forall e, proper e -> exists o, expr_ld F v e = Ok o).
  { induction e0 as [f|c l IHl r IHr]; intros W; cbn [expr_ld]; [eauto|]. destruct W as (O & Wl & Wr). destruct (IHl Wl) as [a ->], (IHr Wr) as [b ->]. cbn [bind].
    destruct a as [a|]; [|eauto]. destruct b as [b|]; [|eauto]. destruct (op_ld c a b O) as [x ->]. eauto. }
  induction e as [f|c l IHl r IHr]; intros W (k & S & N); cbn [expr_ld]; [now rewrite frac_ld_none by eauto|]. destruct W as (O & Wl & Wr). destruct S as [S|S].
  - rewrite IHl by eauto. destruct (T r Wr) as [b ->]. reflexivity.
  - rewrite IHr by eauto. destruct (T l Wl) as [a ->]. cbn [bind]. now destruct a.
Qed.
Lemma expr_ld_proper e o : expr_ld F v e = Ok (Some o) -> proper e.
Proof.
  revert o. induction e as [f|c l IHl r IHr]; intros o E; cbn [expr_ld] in E; [exact I|].
  destruct (expr_ld F v l) as [[a|]|m|m|]; cbn [bind] in E; try discriminate; destruct (expr_ld F v r) as [[b|]|m|m|]; cbn [bind] in E; try discriminate.
  split; [|split; eauto]. unfold operator. cbn [list_ascii_of_string In].
  destruct (Ascii.eqb_spec c "+"); [subst; tauto|]. destruct (Ascii.eqb_spec c "-"); [subst; tauto|]. destruct (Ascii.eqb_spec c "*"); [subst; tauto|].
  destruct (Ascii.eqb_spec c "/"); [subst; tauto|]. destruct (Ascii.eqb_spec c "^"); [subst; tauto|]. discriminate.
Qed.
End Ld.

(** ** the value with exact arithmetic *)
Section Exact.
Context (show : R -> text) (read : text -> res R) (root : rat -> Z -> res Z) (v : list (string * D (exact show read root))) (s : string -> R).
Context (A : forall k x, mget k v = Some x -> s k = x).
Local Notation F := (exact show read root).
Lemma pow_plain k q : plain_power s (k, q) -> epow (s k) (Q2R (qv q)) = pwr (s k) q.
Proof.
  unfold plain_power, pwr. cbn [fst snd]. intros H. destruct (Z.eqb_spec (den q) 1) as [E|N].
  - unfold qv. rewrite E. unfold Qdiv. unfold Q2R. cbn [inject_Z Qnum Qden Qinv Qmult]. rewrite Z.mul_1_r. change (1 * 1)%positive with 1%positive. rewrite Rinv_1, Rmult_1_r. apply epow_int.
  - destruct H as [H|H]; [|contradiction]. unfold epow. destruct (Rlt_dec 0 (s k)); [reflexivity|contradiction].
Qed.
Lemma syms_exact m : Forall (plain_power s) m -> forall acc x : R, syms_ld F v m acc = Some x -> x = (acc * sv s m)%R.
Proof.
  induction 1 as [|[k q] m H Fm IH]; intros acc x; cbn [syms_ld].
  - intros E. assert (E' : acc = x) by exact (f_equal (fun o => match o with Some y => y | None => acc end) E). subst x. unfold sv. cbn [fold_right]. now rewrite Rmult_1_r.
  - destruct (mget k v) as [y|] eqn:E; [|discriminate]. intros E2. rewrite (IH _ _ E2). cbn [exact d_mul d_pow d_of_rat]. rewrite <- (A k y E), (pow_plain k q H).
    unfold sv. cbn [fold_right fst snd]. now rewrite Rmult_assoc.
Qed.
Lemma terms_exact l : plain_poly s l -> forall acc x : R, terms_ld F v l acc = Some x -> x = (acc + pv s l)%R.
Proof.
  induction 1 as [|t l H Fl IH]; intros acc x; cbn [terms_ld].
  - intros E. assert (E' : acc = x) by exact (f_equal (fun o => match o with Some y => y | None => acc end) E). subst x. unfold pv. cbn [fold_right]. now rewrite Rplus_0_r.
  - unfold term_ld. destruct (syms_ld F v (syms t) (d_of_real F (tco t))) as [y|] eqn:E; [|discriminate]. intros E2. rewrite (IH _ _ E2). apply syms_exact in E; [|exact H]. rewrite E.
    unfold pv. cbn [fold_right]. unfold tv. cbn [exact d_add d_of_real]. now rewrite Rplus_assoc.
Qed.
Lemma frac_exact f (x : R) : plain_poly s (fnum f) -> plain_poly s (fden f) -> frac_ld F v f = Some x -> x = fv s f.
Proof.
  intros H1 H2. unfold frac_ld, poly_ld. destruct (terms_ld F v (fnum f) (d_zero F)) as [a|] eqn:E1; [|discriminate]. destruct (terms_ld F v (fden f) (d_zero F)) as [b|] eqn:E2; [|discriminate].
  intros E. injection E as <-. apply terms_exact in E1, E2; try assumption. rewrite E1, E2. cbn [exact d_div d_zero]. unfold fv. now rewrite !Rplus_0_l.
Qed.
Lemma expr_exact e : plain s e -> forall x : R, expr_ld F v e = Ok (Some x) -> x = ev s e.
Proof.
  induction e as [f|c l IHl r IHr]; intros W x; cbn [expr_ld ev].
  - intros E. injection E as E. destruct W. now apply frac_exact.
  - destruct W as [Wl Wr]. destruct (expr_ld F v l) as [[a|]|m|m|] eqn:E1; cbn [bind]; try discriminate; destruct (expr_ld F v r) as [[b|]|m|m|] eqn:E2; cbn [bind]; try discriminate.
    rewrite <- (IHl Wl a eq_refl), <- (IHr Wr b eq_refl). cbn [exact d_add d_sub d_mul d_div d_pow].
    destruct (Ascii.eqb c "+"); [intros E; now injection E as <-|]. destruct (Ascii.eqb c "-"); [intros E; now injection E as <-|]. destruct (Ascii.eqb c "*"); [intros E; now injection E as <-|].
    destruct (Ascii.eqb c "/"); [intros E; now injection E as <-|]. destruct (Ascii.eqb c "^"); [intros E; now injection E as <-|discriminate].
Qed.
End Exact.

(** ** calls *)
Lemma efind_mget k m : efind k m = mget k m.
Proof. induction m as [|[k' x] m IH]; cbn [efind mget]; [reflexivity|]. rewrite IH. destruct (String.eqb_spec k k'), (String.eqb_spec k' k); congruence. Qed.
Definition binding (params : list string) (vals : list real) : envmap := fold_left (fun m kv => mput (fst kv) (snd kv) m) (combine params vals) [].
Lemma binding_gen params : forall vals m k, mget k (fold_left (fun m kv => mput (fst kv) (snd kv) m) (combine params vals) m) =
  match argument params vals k with Some x => Some x | None => mget k m end.
Proof.
  induction params as [|p ps IH]; intros vals m k; cbn [combine argument]; [reflexivity|]. destruct vals as [|x vs]; [reflexivity|]. cbn [fold_left fst snd]. rewrite IH.
  destruct (argument ps vs k); [reflexivity|]. rewrite mget_mput. destruct (String.eqb k p); reflexivity.
Qed.
Lemma binding_argument params vals k : efind k (binding params vals) = argument params vals k.
Proof. rewrite efind_mget. unfold binding. rewrite binding_gen. cbn [mget]. now destruct (argument params vals k). Qed.
Lemma binding_extend params vals s k : extend (binding params vals) s k = with_arguments params vals s k.
Proof. unfold extend, with_arguments. rewrite binding_argument. reflexivity. Qed.

Lemma read_args_split C t : forall temp vals, read_args C t temp = Ok vals <-> exists texts, split_args t temp = Ok texts /\ Forall2 (argument_value C) texts vals.
Proof.
  induction t as [|c t IH]; intros temp vals; cbn [read_args split_args].
  - destruct temp as [|d temp].
    + split; [intros E; injection E as <-; exists []; split; [reflexivity|constructor]|]. intros (u & E & H). injection E as <-. now inversion H.
    + split.
      * destruct (rat_of_string _ _ _) as [q|m|m|] eqn:Q; try discriminate. cbn [bind]. destruct (real_of_rat _ q) as [x|m|m|] eqn:X; try discriminate. intros E. injection E as <-.
        eexists. split; [reflexivity|]. constructor; [exists q; auto|constructor].
      * intros (u & E & H). injection E as <-. inversion H as [|? x ? ? (q & Q & X) H']; subst. inversion H'; subst. cbn [rev]. rewrite Q. cbn [bind]. rewrite X. reflexivity.
  - destruct (is_space c); [apply IH|]. destruct (Ascii.eqb c ","); [|apply IH]. destruct temp as [|d temp].
    + split; [discriminate|]. intros (u & E & _). discriminate E.
    + split.
      * destruct (rat_of_string _ _ _) as [q|m|m|] eqn:Q; try discriminate. cbn [bind]. destruct (real_of_rat _ q) as [x|m|m|] eqn:X; try discriminate. cbn [bind].
        destruct (read_args C t []) as [r|m|m|] eqn:RA; try discriminate. cbn [bind]. intros E. injection E as <-. apply IH in RA. destruct RA as (u & E & H). rewrite E. cbn [bind].
        eexists. split; [reflexivity|]. constructor; [exists q; auto|exact H].
      * intros (u & E & H). destruct (split_args t []) as [r|m|m|] eqn:SA; try discriminate. cbn [bind] in E. injection E as <-. inversion H as [|? x ? vs (q & Q & X) H']; subst. cbn [rev].
        cbn [rev] in Q. rewrite Q. cbn [bind]. rewrite X. cbn [bind]. rewrite (proj2 (IH [] vs)) by eauto. reflexivity.
Qed.
Lemma read_args_iff C t vals : read_args C t [] = Ok vals <-> exists texts, pieces t texts /\ Forall2 (argument_value C) texts vals.
Proof.
  rewrite read_args_split. split; intros (u & E & H); exists u; (split; [now apply split_args_pieces|exact H]).
Qed.

(** ** what print_result prints *)
Lemma shows_integer_iff C e b : shows_integer C e = Ok b -> (b = true <-> integer_constant C e).
Proof.
  unfold shows_integer, integer_constant. intros H. destruct (expr_try_eval (cp C) e) as [[f|]|m|m|] eqn:E; cbn [bind] in H; try discriminate.
  - destruct (frac_no_symbols f) eqn:NS.
    + destruct (frac_is_rational _ f) as [[]|m|m|] eqn:FR; cbn [bind] in H; try discriminate.
      * destruct (frac_to_rational _ f) as [q|m|m|] eqn:TR; cbn [bind] in H; try discriminate. injection H as <-. unfold is_int. split.
        -- intros D. apply Z.eqb_eq in D. exists f, q. auto.
        -- intros (f' & q' & E' & _ & _ & TR' & D). injection E' as <-. rewrite TR in TR'. injection TR' as <-. now apply Z.eqb_eq.
      * injection H as <-. split; [discriminate|]. intros (f' & q' & E' & _ & FR' & _). injection E' as <-. congruence.
    + injection H as <-. split; [discriminate|]. intros (f' & q' & E' & NS' & _). injection E' as <-. congruence.
  - injection H as <-. split; [discriminate|]. intros (f' & q' & E' & _). discriminate E'.
Qed.
Lemma print_result_shown C e (s : cstate C) : fin (print_result C e s) = Ok tt -> shown C e s (out (print_result C e s)).
Proof.
  unfold print_result. destruct (expr_normalize (cp C) e) as [e'|m|m|] eqn:N; cbn [bind run stop fin]; try discriminate.
  destruct (expr_to_string (pe (cp C)) e') as [u|m|m|] eqn:T; cbn [bind run stop fin]; try discriminate. unfold follow. cbn [fin say post fst snd out].
  pose proof (shows_integer_iff C e') as IFF.
  destruct (shows_integer C e') as [[]|m|m|] eqn:SI; cbn [run stop fin say out bind]; try discriminate.
  - intros _. exists e', u. split; [exact N|]. split; [exact T|]. left. split; [reflexivity|]. left. now apply (IFF true).
  - destruct (expr_ld (cf C) (consts s) e') as [[x|]|m|m|] eqn:L; cbn [run stop fin say out bind]; try discriminate; intros _; exists e', u; (split; [exact N|]); (split; [exact T|]).
    + right. exists x. split; [intros IC; apply (IFF false eq_refl) in IC; discriminate IC|]. auto.
    + left. auto.
Qed.
