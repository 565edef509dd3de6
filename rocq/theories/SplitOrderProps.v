(** Property C147. *)
From Coq Require Import Lra Lia String.
From Verif Require Import Base Vec RKSpec RK RKFacts RKProps ThetaSpec Theta ThetaProps ConvergenceSpec ConvergenceFacts ConvergenceMain ConvergenceProps ConvergenceImplicitProps TimeVarying SplitOrderSpec SplitOrder SplitOrderFacts.
Open Scope R_scope.

(** ** Each substep is a Runge-Kutta step *)
Definition tab_of (physics : bool) (sc : subscheme) : rk :=
  match sc with
  | ExplicitSub A s _ => mk_rk s (fun i j => if Nat.ltb j i then a_coef A i j else 0) (b_coef A s)
  | ThetaSub theta => if physics then mk_rk 1 (fun _ _ => 0) (fun _ => 1) else mk_rk 2 (theta_imp theta) (theta_imp theta 2%nat)
  end.
(** a scheme of order p for the terms it is given: consistent coefficients; the theta family is of order two only as the trapezium rule, and for physics it is one explicit evaluation *)
Definition sub_order (p : nat) (physics : bool) (sc : subscheme) : Prop :=
  match sc with
  | ExplicitSub A s _ => (0 < s)%nat /\ (exists B, bounded_table A B) /\ match p with 1%nat => has_order1 A s | _ => has_order2 A s end
  | ThetaSub theta => match p with 1%nat => True | _ => physics = false /\ theta = 1 / 2 end
  end.
Lemma erk_rk {I} A s f (F : vec I -> vec I) h x x' : erk_step A s F h x x' -> rk_step (tab_of f (ExplicitSub A s Increment)) F h x x'.
Proof.
  intros (k & Hk & E). exists k. cbn [tab_of st ra rb]. split; [|exact E]. intros i Hi. rewrite (Hk i Hi) at 1. f_equal. f_equal. f_equal. symmetry. apply (vsum_masked s i k (a_coef A i)). lia.
Qed.
Lemma theta_rk {I} theta (F : vec I -> vec I) h x x' : theta_step theta F nothing h x x' -> rk_step (tab_of false (ThetaSub theta)) F h x x'.
Proof.
  unfold theta_step, nothing. intros E. exists (fun i => match i with 0%nat => F x | _ => F x' end). cbn [tab_of st ra rb].
  assert (G : x' = x +v h *v vsum 2 (fun j => theta_imp theta 2 j *v match j with 0%nat => F x | _ => F x' end)).
  { rewrite E at 1. unfold theta_imp, table. cbn [vsum nth]. generalize (F x) (F x'). intros. vring. }
  split; [|exact G]. intros [|[|i]] Hi; [|f_equal; exact G|lia]. f_equal. unfold theta_imp, table. cbn [vsum nth]. generalize (F x) (F x'). intros. vring.
Qed.
Lemma theta_one {I} theta (F P : vec I -> vec I) h x x' : (exists X src src', theta_apply (neg F) (neg P) h X theta 1 src x x' src') -> theta_step theta F P h x x'.
Proof.
  intros (X & src & src' & H). assert (S : steps (theta_step theta (neg (neg F)) (neg (neg P)) h) 1 x x') by (apply (proj1 (theta_schemes_are_textbook I (neg F) (neg P) h X src 1 x x')); exists src'; exact H).
  destruct S as (z & S & ->). assert (N : forall G : vec I -> vec I, neg (neg G) = G) by (intros G; apply functional_extensionality; intros v; unfold neg; vring). rewrite !N in S. exact S.
Qed.
Lemma total_left {I} (F : vec I -> vec I) : total F nothing = F.
Proof. apply functional_extensionality. intros v. unfold total, nothing. vring. Qed.
Lemma total_right {I} (F : vec I -> vec I) : total nothing F = F.
Proof. apply functional_extensionality. intros v. unfold total, nothing. vring. Qed.
Lemma dyn_rk {I} p sc (F : vec I -> vec I) h x x' : sub_order p false sc -> sub_apply sc F nothing h x x' -> rk_step (tab_of false sc) F h x x'.
Proof.
  destruct sc as [A s [|]|theta]; cbn [sub_apply sub_order].
  - intros (Hs & _) (k & E). apply (erk_rk A s false). rewrite <- (total_left F). apply (increment_is_textbook I A s F nothing h k x x' Hs). symmetry. exact E.
  - intros (Hs & _) (k & E). apply (erk_rk A s false). rewrite <- (total_left F). apply (predictor_is_textbook I A s F nothing h k x x' Hs). symmetry. exact E.
  - intros _ H. apply theta_rk. apply theta_one. exact H.
Qed.
Lemma phys_rk {I} p sc (P : vec I -> vec I) h x x' : sub_order p true sc -> sub_apply sc nothing P h x x' -> rk_step (tab_of true sc) P h x x'.
Proof.
  destruct sc as [A s [|]|theta]; cbn [sub_apply sub_order].
  - intros (Hs & _) (k & E). apply (erk_rk A s true). rewrite <- (total_right P). apply (increment_is_textbook I A s nothing P h k x x' Hs). symmetry. exact E.
  - intros (Hs & _) (k & E). apply (erk_rk A s true). rewrite <- (total_right P). apply (predictor_is_textbook I A s nothing P h k x x' Hs). symmetry. exact E.
  - intros _ H. apply theta_one in H. unfold theta_step, nothing in H. exists (fun _ => P x). cbn [tab_of st ra rb]. split.
    + intros i Hi. f_equal. cbn [vsum]. vring.
    + rewrite H at 1. cbn [vsum]. vring.
Qed.
Lemma tab_bounded p b sc : sub_order p b sc -> rk_bounded (tab_of b sc).
Proof.
  destruct sc as [A s f|theta]; cbn [sub_order tab_of].
  - intros (_ & (B & B0 & HB) & _). exists B. split; [exact B0|]. intros i j. cbn [ra rb]. split; [|apply HB]. destruct (Nat.ltb_spec j i); [|rewrite Rabs_R0; exact B0]. destruct i; cbn; [rewrite Rabs_R0; exact B0|apply HB].
  - intros _. destruct b.
    + exists 1. split; [lra|]. intros i j. cbn [ra rb]. rewrite Rabs_R0, Rabs_R1. lra.
    + destruct (table_bounded [[0; 0]; [1 - theta; theta]; [1 - theta; theta]]) as (B & B0 & HB). exists B. split; [exact B0|]. intros i j. cbn [ra rb]. split; apply HB.
Qed.
Lemma tab_order1 p b sc : (p = 1 \/ p = 2)%nat -> sub_order p b sc -> rk1 (tab_of b sc).
Proof.
  intros Hp. unfold rk1. destruct sc as [A s f|theta]; cbn [sub_order tab_of].
  - intros (_ & _ & H). cbn [st rb]. destruct Hp as [-> | ->]; [exact H|exact (proj1 H)].
  - intros _. destruct b; cbn [st rb rsum]; [lra|]. unfold theta_imp, table. cbn. lra.
Qed.
Lemma tab_order2 b sc : sub_order 2 b sc -> rk2 (tab_of b sc).
Proof.
  unfold rk2. destruct sc as [A s f|theta]; cbn [sub_order tab_of].
  - intros (_ & _ & _ & H). cbn [st rb ra]. unfold RKSpec.order2 in H. rewrite <- H. apply rsum_ext. intros i Hi. f_equal. unfold c_coef. apply (rsum_masked s i (a_coef A i)). lia.
  - intros [-> ->]. cbn [st rb ra rsum]. unfold theta_imp, table. cbn. lra.
Qed.

(** ** The whole step *)
Fixpoint pos (l : string) (labels : list string) : nat := match labels with [] => 0%nat | x :: tl => if String.eqb x l then 0%nat else S (pos l tl) end.
Lemma pos_lt l labels : In l labels -> (pos l labels < List.length labels)%nat.
Proof. induction labels as [|x tl IH]; cbn; [intros []|]. destruct (String.eqb_spec x l); [lia|]. intros [E|H]; [contradiction|]. specialize (IH H). lia. Qed.
Lemma nth_pos l labels : In l labels -> nth (pos l labels) labels EmptyString = l.
Proof. induction labels as [|x tl IH]; cbn; [intros []|]. destruct (String.eqb_spec x l); [intros _; exact e|]. intros [E|H]; [contradiction|]. apply IH. exact H. Qed.
Lemma pos_nth labels : NoDup labels -> forall q, (q < List.length labels)%nat -> pos (nth q labels EmptyString) labels = q.
Proof.
  induction 1 as [|x tl N ND IH]; intros q Hq; cbn in Hq; [lia|]. destruct q as [|q]; cbn; [rewrite String.eqb_refl; reflexivity|].
  destruct (String.eqb_spec x (nth q tl EmptyString)) as [E|E]; [exfalso; apply N; rewrite E; apply nth_In; lia|]. rewrite IH by lia. reflexivity.
Qed.
Lemma pos_inj l l' labels : In l labels -> In l' labels -> pos l labels = pos l' labels -> l = l'.
Proof. intros H H' E. rewrite <- (nth_pos l labels H), <- (nth_pos l' labels H'), E. reflexivity. Qed.

Section Whole.
Context {I : Type}.
Variables (labels : list string) (dyn_scheme : string -> subscheme) (dyn : string -> vec I -> vec I) (phys : list (subscheme * (vec I -> vec I))) (all : list (string * R)).
Definition parts (q : nat) : vec I -> vec I :=
  if Nat.ltb q (List.length labels) then dyn (nth q labels EmptyString) else nth (q - List.length labels) (map snd phys) (fun _ => vzero).
Definition mm : nat := (List.length labels + List.length phys)%nat.
Fixpoint phys_entries (n : nat) (ps : list (subscheme * (vec I -> vec I))) (w : R) : list (nat * R * rk) :=
  match ps with [] => [] | (sc, _) :: tl => (n, used_weight all "physics" w sc, tab_of true sc) :: phys_entries (S n) tl w end.
Definition entries (e : string * R) : list (nat * R * rk) :=
  if String.eqb (fst e) "physics" then phys_entries (List.length labels) phys (snd e)
  else [(pos (fst e) labels, used_weight all (fst e) (snd e) (dyn_scheme (fst e)), tab_of false (dyn_scheme (fst e)))].
Definition flat (todo : list (string * R)) : list (nat * R * rk) := flat_map entries todo.

Variables (p : nat).
Hypothesis p12 : (p = 1 \/ p = 2)%nat.
Hypothesis dyn_ok : forall l, In l labels -> sub_order p false (dyn_scheme l).
Hypothesis phys_ok : forall sc P, In (sc, P) phys -> sub_order p true sc.

Lemma chain_app (F : nat -> vec I -> vec I) l1 : forall l2 h x z x', chain F l1 h x z -> chain F l2 h z x' -> chain F (l1 ++ l2) h x x'.
Proof. induction l1 as [|[[q w] T] tl IH]; intros l2 h x z x' H1 H2; [cbn in H1; subst z; exact H2|]. destruct H1 as (u & Hu & Hc). exists u. split; [exact Hu|]. apply (IH l2 h u z x'); assumption. Qed.
Lemma phys_chain dt w done rest : (done ++ rest = phys)%list -> forall x x', physics_substeps all rest dt w x x' -> chain parts (phys_entries (List.length labels + List.length done) rest w) dt x x'.
Proof.
  revert done. induction rest as [|[sc P] tl IH]; intros done E x x' H; [exact H|]. destruct H as (z & H1 & H2). cbn [phys_entries chain]. exists z. split.
  - assert (EP : parts (List.length labels + List.length done) = P).
    { unfold parts. rewrite if_ge by lia. replace (List.length labels + List.length done - List.length labels)%nat with (List.length (map (@snd subscheme (vec I -> vec I)) done) + 0)%nat by (rewrite map_length; lia). rewrite <- E, map_app. rewrite app_nth2_plus. reflexivity. }
    rewrite EP. apply (phys_rk p); [|exact H1]. apply (phys_ok sc P). rewrite <- E. apply in_or_app. right. left. reflexivity.
  - replace (S (List.length labels + List.length done)) with (List.length labels + List.length (done ++ [(sc, P)]))%nat by (rewrite app_length; cbn; lia). apply IH; [rewrite <- app_assoc; exact E|exact H2].
Qed.
Lemma step_chain todo dt : (forall l w, In (l, w) todo -> l = "physics"%string \/ In l labels) -> forall x x', substeps dyn_scheme dyn phys all todo dt x x' -> chain parts (flat todo) dt x x'.
Proof.
  induction todo as [|[l w] tl IH]; intros Hl x x' H; [exact H|]. destruct H as (z & H1 & H2). unfold flat. cbn [flat_map]. apply (chain_app parts _ _ dt x z x'); [|apply IH; [intros l' w' Hi; apply (Hl l' w'); right; exact Hi|exact H2]].
  unfold entries. cbn [fst snd]. destruct (String.eqb_spec l "physics") as [->|N].
  - pose proof (phys_chain dt w [] phys eq_refl x z H1) as Q. cbn [List.length] in Q. rewrite Nat.add_0_r in Q. exact Q.
  - destruct (Hl l w (or_introl eq_refl)) as [E|Hin]; [contradiction|]. cbn [chain]. exists z. split; [|reflexivity]. unfold parts. rewrite if_lt by (apply pos_lt; exact Hin). rewrite nth_pos by exact Hin. apply (dyn_rk p); [apply dyn_ok; exact Hin|exact H1].
Qed.
Lemma phys_entries_in n ps w q v T : In (q, v, T) (phys_entries n ps w) -> (n <= q < n + List.length ps)%nat /\ exists sc P, In (sc, P) ps /\ T = tab_of true sc.
Proof.
  revert n. induction ps as [|[sc P] tl IH]; intros n; cbn [phys_entries In List.length]; [intros []|]. intros [E|H].
  - injection E as <- _ <-. split; [lia|]. exists sc, P. split; [left; reflexivity|reflexivity].
  - destruct (IH (S n) H) as (Hn & sc' & P' & Hi & E). split; [lia|]. exists sc', P'. split; [right; exact Hi|exact E].
Qed.
Lemma flat_in todo q v T : (forall l w, In (l, w) todo -> l = "physics"%string \/ In l labels) -> In (q, v, T) (flat todo) -> (q < mm)%nat /\ rk1 T /\ rk_bounded T /\ (p = 2%nat -> rk2 T).
Proof.
  intros Hl H. apply in_flat_map in H. destruct H as ([l w] & Hi & H). unfold entries in H. cbn [fst snd] in H. unfold mm. destruct (String.eqb_spec l "physics") as [->|N].
  - destruct (phys_entries_in _ _ _ _ _ _ H) as (Hq & sc & P & Hsc & ->). pose proof (phys_ok sc P Hsc) as O. split; [lia|]. split; [apply (tab_order1 p); assumption|]. split; [apply (tab_bounded p); exact O|]. intros E. rewrite E in O. apply tab_order2. exact O.
  - destruct (Hl l w Hi) as [E|Hin]; [contradiction|]. destruct H as [H|[]]. injection H as <- _ <-. pose proof (dyn_ok l Hin) as O. split; [pose proof (pos_lt l labels Hin); lia|]. split; [apply (tab_order1 p); assumption|]. split; [apply (tab_bounded p); exact O|]. intros E. rewrite E in O. apply tab_order2. exact O.
Qed.

(** the weights that are used are the given ones *)
Hypothesis same_dyn : forall l w, In (l, w) all -> l <> "physics"%string -> keeps_first_dt (dyn_scheme l) = true -> w = first_weight l all.
Hypothesis same_phys : forall w sc P, In ("physics"%string, w) all -> In (sc, P) phys -> keeps_first_dt sc = true -> w = first_weight "physics" all.
Lemma phys_pw w : In ("physics"%string, w) all -> forall n ps, incl ps phys -> pw (phys_entries n ps w) = map (fun k => (k, w)) (seq n (List.length ps)).
Proof.
  intros Hw n ps. revert n. induction ps as [|[sc P] tl IH]; intros n Hi; [reflexivity|]. cbn [phys_entries pw map fst List.length seq]. f_equal; [|apply IH; intros z Hz; apply Hi; right; exact Hz].
  f_equal. unfold used_weight. destruct (keeps_first_dt sc) eqn:K; [|reflexivity]. symmetry. apply (same_phys w sc P Hw); [apply Hi; left; reflexivity|exact K].
Qed.
Lemma wsum_const n len w r : wsum (map (fun k => (k, w)) (seq n len)) r = if andb (Nat.leb n r) (Nat.ltb r (n + len)) then w else 0.
Proof.
  revert n. induction len as [|len IH]; intros n; cbn [seq map wsum].
  - destruct (Nat.leb_spec n r), (Nat.ltb_spec r (n + 0)); cbn; try reflexivity; lia.
  - rewrite IH. unfold on. destruct (Nat.eqb_spec r n); destruct (Nat.leb_spec (S n) r), (Nat.ltb_spec r (S n + len)), (Nat.leb_spec n r), (Nat.ltb_spec r (n + S len)); cbn; try lia; ring.
Qed.
Lemma pw_app l1 l2 : pw (l1 ++ l2) = (pw l1 ++ pw l2)%list. Proof. apply map_app. Qed.
Lemma entry_pw l w : In (l, w) all -> pw (entries (l, w)) = if String.eqb l "physics" then map (fun k => (k, w)) (seq (List.length labels) (List.length phys)) else [(pos l labels, w)].
Proof.
  intros H. unfold entries. cbn [fst snd]. destruct (String.eqb_spec l "physics") as [->|N].
  - apply phys_pw; [exact H|intros z Hz; exact Hz].
  - cbn. f_equal. f_equal. unfold used_weight. destruct (keeps_first_dt (dyn_scheme l)) eqn:K; [|reflexivity]. symmetry. apply same_dyn; assumption.
Qed.
Lemma flat_weight todo q : incl todo all -> (forall l w, In (l, w) todo -> l = "physics"%string \/ In l labels) -> NoDup labels -> ~ In "physics"%string labels -> (q < mm)%nat ->
  wsum (pw (flat todo)) q = weight_of (if Nat.ltb q (List.length labels) then nth q labels EmptyString else "physics"%string) todo.
Proof.
  intros Hall Hl ND NP Hq. induction todo as [|[l w] tl IH]; [reflexivity|]. unfold flat. cbn [flat_map]. rewrite pw_app, wsum_app. change (flat_map entries tl) with (flat tl).
  rewrite IH by (try (intros z Hz; apply Hall; right; exact Hz); intros l' w' Hi; apply (Hl l' w'); right; exact Hi). cbn [weight_of fold_right fst snd]. f_equal. rewrite entry_pw by (apply Hall; left; reflexivity).
  destruct (Nat.ltb_spec q (List.length labels)) as [Hlo|Hhi].
  - assert (Hn : In (nth q labels EmptyString) labels) by (apply nth_In; exact Hlo). destruct (String.eqb_spec l "physics") as [->|N].
    + rewrite wsum_const. destruct (Nat.leb_spec (List.length labels) q); [lia|]. cbn [andb]. destruct (String.eqb_spec "physics" (nth q labels EmptyString)) as [E|E]; [exfalso; apply NP; rewrite E; exact Hn|reflexivity].
    + destruct (Hl l w (or_introl eq_refl)) as [E|Hin]; [contradiction|]. cbn [wsum]. unfold on. rewrite Rplus_0_r. destruct (Nat.eqb_spec q (pos l labels)) as [E|E].
      * rewrite E, nth_pos by exact Hin. rewrite String.eqb_refl. reflexivity.
      * destruct (String.eqb_spec l (nth q labels EmptyString)) as [E'|E']; [|reflexivity]. exfalso. apply E. rewrite E'. symmetry. apply pos_nth; assumption.
  - destruct (String.eqb_spec l "physics") as [->|N].
    + rewrite wsum_const. unfold mm in Hq. destruct (Nat.leb_spec (List.length labels) q), (Nat.ltb_spec q (List.length labels + List.length phys)); cbn; try lia. reflexivity.
    + destruct (Hl l w (or_introl eq_refl)) as [E|Hin]; [contradiction|]. cbn [wsum]. unfold on. pose proof (pos_lt l labels Hin). destruct (Nat.eqb_spec q (pos l labels)); [lia|]. ring.
Qed.
Lemma flat_rev todo : incl todo all -> (List.length phys <= 1)%nat -> rev (pw (flat todo)) = pw (flat (rev todo)).
Proof.
  intros Hall H1. induction todo as [|[l w] tl IH]; [reflexivity|]. unfold flat. cbn [flat_map rev]. rewrite flat_map_app. cbn [flat_map]. rewrite app_nil_r, !pw_app, rev_app_distr.
  change (flat_map entries tl) with (flat tl). change (flat_map entries (rev tl)) with (flat (rev tl)). rewrite IH by (intros z Hz; apply Hall; right; exact Hz). f_equal. rewrite entry_pw by (apply Hall; left; reflexivity).
  destruct (String.eqb l "physics"); [|reflexivity]. destruct phys as [|a [|b t]]; [reflexivity|reflexivity|cbn in H1; lia].
Qed.
End Whole.

(** the forms hold the length of the first substep: every scheme other than the increment formulation *)
Definition rebuilds_nothing (sc : subscheme) : Prop := match sc with ExplicitSub _ _ f => f = Predictor | ThetaSub _ => True end.
(** What the configuration must satisfy: such a scheme must be given equal weights.  [labels]: the names of the groups of dynamics terms. *)
Record valid_splitting {I} (p : nat) (labels : list string) (dyn_scheme : string -> subscheme) (phys : list (subscheme * (vec I -> vec I))) (todo : list (string * R)) : Prop := {
  names : NoDup labels /\ ~ In "physics"%string labels /\ forall l w, In (l, w) todo -> l = "physics"%string \/ In l labels;
  weights_dyn : forall l, In l labels -> weight_of l todo = 1;
  weights_phys : phys <> [] -> weight_of "physics" todo = 1;
  schemes_dyn : forall l, In l labels -> sub_order p false (dyn_scheme l);
  schemes_phys : forall sc P, In (sc, P) phys -> sub_order p true sc;
  equal_dyn : forall l w w', In (l, w) todo -> In (l, w') todo -> l <> "physics"%string -> rebuilds_nothing (dyn_scheme l) -> w = w';
  equal_phys : forall w w' sc P, In ("physics"%string, w) todo -> In ("physics"%string, w') todo -> In (sc, P) phys -> rebuilds_nothing sc -> w = w'
}.
Lemma first_weight_in l w todo : In (l, w) todo -> In (l, first_weight l todo) todo.
Proof.
  induction todo as [|[l' w'] tl IH]; [intros []|]. cbn [first_weight]. destruct (String.eqb_spec l' l) as [->|N]; [intros _; left; reflexivity|]. intros [E|H]; [injection E as E _; contradiction|]. right. apply IH. exact H.
Qed.
Lemma keeps_rebuilds sc : keeps_first_dt sc = true -> rebuilds_nothing sc.
Proof. destruct sc as [A s [|]|theta]; cbn; [discriminate|intros _; reflexivity|intros _; exact Logic.I]. Qed.

Lemma split_converges {I} p labels dyn_scheme (dyn : string -> vec I -> vec I) phys todo y t0 T L : (p = 1 \/ p = 2)%nat ->
  finite_index I -> valid_splitting p labels dyn_scheme phys todo -> (p = 2%nat -> symmetric_splitting todo /\ (List.length phys <= 1)%nat) ->
  (forall l, In l labels -> regular p (dyn l) y t0 T L everywhere) -> (forall P, In P (map snd phys) -> regular p P y t0 T L everywhere) -> 0 <= L ->
  solution_of (full_rhs labels dyn (map snd phys)) y t0 T -> converges_at p (split_step dyn_scheme dyn phys todo) y t0 T.
Proof.
  intros p12 fin V Hsym rd rp L0 sol. destruct V as [(ND & NP & Hl) wd wp sd sp ed' ep'].
  assert (ed : forall l w, In (l, w) todo -> l <> "physics"%string -> keeps_first_dt (dyn_scheme l) = true -> w = first_weight l todo) by (intros l w Hi N K; apply (ed' l w _ Hi (first_weight_in l w todo Hi) N (keeps_rebuilds _ K))).
  assert (ep : forall w sc P, In ("physics"%string, w) todo -> In (sc, P) phys -> keeps_first_dt sc = true -> w = first_weight "physics" todo) by (intros w sc P Hi Hs K; apply (ep' w _ sc P Hi (first_weight_in _ w todo Hi) Hs (keeps_rebuilds _ K))).
  set (F := parts labels dyn phys). set (m := mm labels phys). set (l := flat labels dyn_scheme phys todo todo).
  assert (HF : forall q, (q < m)%nat -> lipschitz L (F q) everywhere /\ smooth p (F q) (along y t0 T)).
  { intros q Hq. assert (R : regular p (F q) y t0 T L everywhere).
    { unfold F, parts. destruct (Nat.ltb_spec q (List.length labels)) as [A|A]; [apply rd; apply nth_In; exact A|]. apply rp. apply nth_In. unfold m, mm in Hq. rewrite map_length. lia. }
    destruct R as (R1 & _ & R3). split; assumption. }
  assert (nb : neighbourhood y t0 T everywhere) by (exists 1; split; [lra|intros; exact Logic.I]).
  assert (sv : solves m F y t0 T).
  { intros t i Ht. replace (vsum m (fun q => F q (y t)) i) with (full_rhs labels dyn (map snd phys) (y t) i); [apply sol; exact Ht|]. unfold m, mm. rewrite vsum_split. unfold full_rhs. rewrite map_length. apply (f_equal (fun g : vec I => g i)). f_equal; apply vsum_ext; intros k Hk; unfold F, parts.
    - rewrite if_lt by exact Hk. reflexivity.
    - rewrite if_ge by lia. replace (List.length labels + k - List.length labels)%nat with k by lia. reflexivity. }
  assert (inl : forall q v U, In (q, v, U) l -> (q < m)%nat /\ rk1 U /\ rk_bounded U /\ (p = 2%nat -> rk2 U)) by (intros q v U Hi; apply (flat_in labels dyn_scheme dyn phys todo p p12 sd sp todo q v U Hl Hi)).
  destruct (compose_bounded l ltac:(intros [[q v] U] Hi; apply (inl q v U Hi)) empty_ark 0 ltac:(intros q i j; cbn; rewrite Rabs_R0; split; lra) ltac:(lra)) as (B & B0 & HB).
  set (t := compose l empty_ark) in *.
  assert (wq : forall q, (q < m)%nat -> wsum (pw l) q = 1).
  { intros q Hq. unfold l. rewrite (flat_weight labels dyn_scheme dyn phys todo p p12 sd sp ed ep todo q ltac:(intros z Hz; exact Hz) Hl ND NP Hq). destruct (Nat.ltb_spec q (List.length labels)) as [A|A]; [apply wd; apply nth_In; exact A|]. apply wp. intros E. unfold m, mm in Hq. rewrite E in Hq. cbn in Hq. lia. }
  assert (oW : forall q, (q < m)%nat -> W t q = 1).
  { intros q Hq. unfold t. rewrite compose_W by (intros [[q' v] U] Hi; apply (inl q' v U Hi)). rewrite wq by exact Hq. unfold W. cbn. ring. }
  assert (order : ark_order m (sa t) (aa t) (ab t) p 0).
  { split; [intros _ q Hq; apply near_0; [lra|apply oW; exact Hq]|]. split; [|split; intros; lia]. intros Hp2 q r Hq Hr. assert (E2 : p = 2%nat) by lia. destruct (Hsym E2) as [HS H1].
    apply near_0; [lra|]. change (D t q r = 1 / 2). unfold t. rewrite compose_D by (intros [[q' v] U] Hi; destruct (inl q' v U Hi) as (_ & O1 & _ & O2); split; [exact O1|apply O2; exact E2]).
    rewrite (dsum_ext (pw l) (W empty_ark) (fun _ => 0)) by reflexivity. rewrite dsum_symmetric; [unfold D; cbn; ring| |apply wq; exact Hq|apply wq; exact Hr].
    unfold l. rewrite (flat_rev labels dyn_scheme dyn phys todo p p12 sd sp ed ep todo ltac:(intros z Hz; exact Hz) H1). rewrite HS. reflexivity. }
  destruct (additive_runge_kutta_converges I p m (sa t) F y t0 T B L everywhere fin ltac:(lia) B0 L0 HF nb sv) as (C & h0 & HC & H0 & H).
  exists C, h0. split; [exact HC|]. split; [exact H0|]. intros dt n x e0 Hdt Hn Hst He Hx.
  assert (En : forall n, rsum n (fun _ => dt) = INR n * dt) by (induction n0 as [|n0 IHn]; [cbn; ring|]; rewrite S_INR; cbn [rsum]; rewrite IHn; ring).
  rewrite <- En. replace (C * (e0 + dt ^ p)) with (C * (e0 + dt ^ p + 0)) by ring.
  apply (H (aa t) (ab t) 0 (fun _ => dt) dt n x e0); try assumption; try lra.
  - split; [lra|]. split; [intros; lra|]. rewrite En. exact Hn.
  - intros k Hk. unfold t. apply (chain_ark m F l ltac:(intros q v U Hi; apply (inl q v U Hi)) empty_ark dt (x k) (x k) (x (S k))); [apply empty_step|].
    apply (step_chain labels dyn_scheme dyn phys todo p p12 sd sp todo dt Hl). apply Hst. exact Hk.
Qed.

(** C147.  Any order of the processes, any weights that add up to one for each, any consistent schemes: the split steps converge to the solution of the whole equation, with at least first order. *)
Theorem split_steps_converge :
  forall (I : Type) labels dyn_scheme (dyn : string -> vec I -> vec I) phys todo y t0 T L, finite_index I -> 0 <= L ->
  valid_splitting 1 labels dyn_scheme phys todo ->
  (forall l, In l labels -> regular 1 (dyn l) y t0 T L everywhere) -> (forall P, In P (map snd phys) -> regular 1 P y t0 T L everywhere) ->
  solution_of (full_rhs labels dyn (map snd phys)) y t0 T -> converges_at 1 (split_step dyn_scheme dyn phys todo) y t0 T.
Proof. intros I labels ds dyn phys todo y t0 T L fin L0 V rd rp sol. apply (split_converges 1 labels ds dyn phys todo y t0 T L); try assumption; [left; reflexivity|intros E; discriminate]. Qed.
Print Assumptions split_steps_converge.

(** C147.  Strang splitting: a symmetric list, schemes of second order and at most one physics scheme give second order. *)
Theorem strang_splitting_second_order :
  forall (I : Type) labels dyn_scheme (dyn : string -> vec I -> vec I) phys todo y t0 T L, finite_index I -> 0 <= L ->
  valid_splitting 2 labels dyn_scheme phys todo -> symmetric_splitting todo -> (List.length phys <= 1)%nat ->
  (forall l, In l labels -> regular 2 (dyn l) y t0 T L everywhere) -> (forall P, In P (map snd phys) -> regular 2 P y t0 T L everywhere) ->
  solution_of (full_rhs labels dyn (map snd phys)) y t0 T -> converges_at 2 (split_step dyn_scheme dyn phys todo) y t0 T.
Proof. intros I labels ds dyn phys todo y t0 T L fin L0 V S1 S2 rd rp sol. apply (split_converges 2 labels ds dyn phys todo y t0 T L); try assumption; [right; reflexivity|intros _; split; assumption]. Qed.
Print Assumptions strang_splitting_second_order.

(** ** Not second order without symmetry *)
Lemma small_step C h0 c : 0 < h0 -> 0 < c -> exists n, 0 < INR n /\ / INR n <= h0 /\ C * (/ INR n) ^ 2 < c * / INR n.
Proof.
  intros Hh Hc. set (K := Rmax (/ h0) (Rabs C / c + 1)). destruct (archimed K) as [K1 _].
  assert (Q0 : 0 <= Rabs C / c) by (apply Rmult_le_pos; [apply Rabs_pos|left; apply Rinv_0_lt_compat; exact Hc]).
  assert (K0 : 1 <= K) by (eapply Rle_trans; [|apply Rmax_r]; lra).
  assert (Z0 : (0 <= up K)%Z) by (apply le_IZR; lra). exists (Z.to_nat (up K)). set (n := Z.to_nat (up K)). assert (Nn : INR n = IZR (up K)) by (unfold n; rewrite INR_IZR_INZ, Z2Nat.id by exact Z0; reflexivity).
  assert (n0 : 0 < INR n) by lra. split; [exact n0|]. assert (d0 : 0 < / INR n) by (apply Rinv_0_lt_compat; exact n0). split.
  - rewrite <- (Rinv_inv h0). apply Rinv_le_contravar; [apply Rinv_0_lt_compat; exact Hh|]. apply (Rle_trans _ K); [apply Rmax_l|lra].
  - assert (W : Rabs C / c < INR n) by (assert (Rabs C / c + 1 <= K) by apply Rmax_r; lra).
    assert (W' : Rabs C < c * INR n). { replace (Rabs C) with (c * (Rabs C / c)) by (field; lra). apply Rmult_lt_compat_l; assumption. }
    assert (V : C * / INR n <= Rabs C * / INR n) by (apply Rmult_le_compat_r; [lra|apply Rle_abs]).
    assert (V' : Rabs C * / INR n < c * INR n * / INR n) by (apply Rmult_lt_compat_r; assumption). replace (c * INR n * / INR n) with c in V' by (field; lra).
    replace (C * (/ INR n) ^ 2) with (C * / INR n * / INR n) by ring. apply Rmult_lt_compat_r; [exact d0|lra].
Qed.
(** a tendency that does not change along itself is integrated exactly by every consistent scheme *)
Lemma steady_tendency {I} A s f (F P : vec I -> vec I) h x : (0 < s)%nat -> order1 A s -> (forall c, total F P (x +v c *v total F P x) = total F P x) -> sub_apply (ExplicitSub A s f) F P h x (x +v h *v total F P x).
Proof.
  intros Hs o1 HF. set (G := total F P) in *. assert (E : erk_result A s G h x = x +v h *v G x).
  { destruct (erk_result_spec A s G h x) as (k & Hk & ->). assert (K : forall i, (i < s)%nat -> k i = G x).
    { intros i. induction i as [i IH] using (well_founded_induction lt_wf). intros Hi. rewrite (Hk i Hi). rewrite (vsum_ext i _ (fun j => a_coef A i j *v G x)) by (intros j Hj; rewrite IH by lia; reflexivity).
      rewrite vsum_scal_const. transitivity (G (x +v (h * rsum i (a_coef A i)) *v G x)); [f_equal; vring|apply HF]. }
    f_equal. f_equal. rewrite (vsum_ext s _ (fun j => b_coef A s j *v G x)) by (intros j Hj; rewrite K by exact Hj; reflexivity). rewrite vsum_scal_const. transitivity (1 *v G x); [|vring]. f_equal. exact o1. }
  rewrite <- E. destruct f; cbn [sub_apply]; exists (fun _ => vzero); symmetry; [apply increment_is_textbook|apply predictor_is_textbook]; try exact Hs; apply erk_result_spec.
Qed.

(** dx/dt = y ("lift"), dy/dt = 1 ("push"): x is the component true, y the component false; x = t^2/2, y = t *)
Definition lift (v : vec bool) : vec bool := fun b => if b then v false else 0.
Definition push (v : vec bool) : vec bool := fun b => if b then 0 else 1.
Definition ballistic (t : R) : vec bool := fun b => if b then t ^ 2 / 2 else t.
Definition lift_push (l : string) : vec bool -> vec bool := if String.eqb l "lift" then lift else push.
Lemma lift_apply A s f h x : (0 < s)%nat -> order1 A s -> sub_apply (ExplicitSub A s f) lift nothing h x (x +v h *v lift x) /\ sub_apply (ExplicitSub A s f) nothing lift h x (x +v h *v lift x).
Proof.
  intros Hs o1. split.
  - pose proof (fun H => steady_tendency A s f lift nothing h x Hs o1 H) as Q. rewrite total_left in Q. apply Q. intros c. apply functional_extensionality. intros []; unfold lift; vunfold; ring.
  - pose proof (fun H => steady_tendency A s f nothing lift h x Hs o1 H) as Q. rewrite total_right in Q. apply Q. intros c. apply functional_extensionality. intros []; unfold lift; vunfold; ring.
Qed.
Lemma push_apply A s f h x : (0 < s)%nat -> order1 A s -> sub_apply (ExplicitSub A s f) push nothing h x (x +v h *v push x) /\ sub_apply (ExplicitSub A s f) nothing push h x (x +v h *v push x).
Proof.
  intros Hs o1. split.
  - pose proof (fun H => steady_tendency A s f push nothing h x Hs o1 H) as Q. rewrite total_left in Q. apply Q. intros c. reflexivity.
  - pose proof (fun H => steady_tendency A s f nothing push h x Hs o1 H) as Q. rewrite total_right in Q. apply Q. intros c. reflexivity.
Qed.
(** the split solution after k steps, c the length of the substeps relative to dt *)
Definition behind (c dt : R) (k : nat) : vec bool := fun b => if b then (INR k * dt) ^ 2 / 2 - INR k * dt * (c * dt / 2) else INR k * dt.
Lemma behind_not_second (step : R -> vec bool -> vec bool -> Prop) c : 0 < c -> (forall dt k, step dt (behind c dt k) (behind c dt (S k))) -> ~ converges_at 2 step ballistic 0 1.
Proof.
  intros Hc Hst (C & h0 & HC & H0 & H). destruct (small_step C h0 (c / 2) H0 ltac:(lra)) as (n & n0 & nh & HCn). set (dt := / INR n) in *. assert (d0 : 0 < dt) by (apply Rinv_0_lt_compat; exact n0).
  assert (nd : INR n * dt = 1) by (unfold dt; field; lra).
  specialize (H dt n (behind c dt) 0 (conj d0 nh) ltac:(rewrite nd; lra) ltac:(intros; apply Hst) ltac:(lra)).
  assert (S0 : sup_le (behind c dt 0 -v ballistic 0) 0) by (intros [|]; unfold behind, ballistic; vunfold; cbn [INR]; match goal with |- Rabs ?e <= 0 => replace e with 0 by field end; rewrite Rabs_R0; lra).
  specialize (H S0 true). unfold behind, ballistic in H. vunfold. rewrite Rplus_0_l, nd in H. replace (1 ^ 2 / 2 - 1 * (c * dt / 2) - 1 ^ 2 / 2) with (- (c / 2 * dt)) in H by field. rewrite Rabs_Ropp, Rabs_pos_eq in H; [lra|]. apply Rmult_le_pos; lra.
Qed.
(** C147 fails at second order for Lie splitting, whatever the order of the schemes. *)
Theorem sequential_splitting_second_order_refuted :
  forall A s f, (0 < s)%nat -> order1 A s ->
  ~ converges_at 2 (split_step (fun _ => ExplicitSub A s f) lift_push [] [("lift"%string, 1); ("push"%string, 1)]) ballistic 0 1.
Proof.
  intros A s f Hs o1. apply (behind_not_second _ 1 ltac:(lra)). intros dt k. unfold split_step. cbn [substeps String.eqb Ascii.eqb Bool.eqb].
  assert (U : forall l, In l ["lift"%string; "push"%string] -> dt * used_weight [("lift"%string, 1); ("push"%string, 1)] l 1 (ExplicitSub A s f) = dt) by (intros l [<-|[<-|[]]]; unfold used_weight; destruct f; cbn; ring).
  exists (behind 1 dt k +v dt *v lift (behind 1 dt k)). split; [rewrite U by (left; reflexivity); apply (lift_apply A s f dt _ Hs o1)|].
  exists ((behind 1 dt k +v dt *v lift (behind 1 dt k)) +v dt *v push (behind 1 dt k +v dt *v lift (behind 1 dt k))). split; [rewrite U by (right; left; reflexivity); apply (push_apply A s f dt _ Hs o1)|].
  apply functional_extensionality. intros []; unfold behind, lift, push; vunfold; rewrite S_INR; field.
Qed.
Print Assumptions sequential_splitting_second_order_refuted.

(** C147 fails at second order for Strang splitting around two physics schemes: both halves apply them in the same order. *)
Definition strang_physics : list (string * R) := [("physics"%string, 1/2); ("transport"%string, 1); ("physics"%string, 1/2)].
Theorem strang_with_two_physics_schemes_refuted :
  let sc := ExplicitSub tab_RK4 4 Increment in
  valid_splitting 2 ["transport"%string] (fun _ => sc) [(sc, lift); (sc, push)] strang_physics /\ symmetric_splitting strang_physics /\
  ~ converges_at 2 (split_step (fun _ => sc) (fun _ => nothing) [(sc, lift); (sc, push)] strang_physics) ballistic 0 1.
Proof.
  cbv zeta. pose proof (proj2 (proj2 (proj2 (proj2 (proj2 (proj2 explicit_schemes_have_advertised_order)))))) as O4. assert (O2 : has_order2 tab_RK4 4) by (apply O4). assert (O1 : order1 tab_RK4 4) by (apply O2).
  assert (ok : forall b, sub_order 2 b (ExplicitSub tab_RK4 4 Increment)) by (intros b; cbn [sub_order]; split; [lia|]; split; [apply table_bounded|exact O2]).
  split; [|split; [reflexivity|]].
  - constructor.
    + split; [repeat constructor; intros []|]. split; [intros [E|[]]; discriminate|]. intros l w [E|[E|[E|[]]]]; injection E as <- _; [left|right; left|left]; reflexivity.
    + intros l [<-|[]]. cbn. lra.
    + intros _. cbn. lra.
    + intros l _. apply ok.
    + intros sc P [E|[E|[]]]; injection E as <- _; apply ok.
    + intros l w w' _ _ _ K. discriminate K.
    + intros w w' sc P _ _ [E|[E|[]]] K; injection E as <- _; discriminate K.
  - apply (behind_not_second _ (1/2) ltac:(lra)). intros dt k. unfold split_step, strang_physics. cbn [substeps physics_substeps String.eqb Ascii.eqb Bool.eqb used_weight keeps_first_dt].
    set (h := dt * (1/2)). set (x0 := behind (1/2) dt k). set (x1 := x0 +v h *v lift x0). set (x2 := x1 +v h *v push x1). set (x3 := x2 +v h *v lift x2). set (x4 := x3 +v h *v push x3).
    exists x2. split.
    { exists x1. split; [apply (lift_apply tab_RK4 4 Increment h x0 ltac:(lia) O1)|]. exists x2. split; [apply (push_apply tab_RK4 4 Increment h x1 ltac:(lia) O1)|reflexivity]. }
    exists x2. split.
    { pose proof (steady_tendency tab_RK4 4 Increment (@nothing bool) nothing (dt * 1) x2 ltac:(lia) O1 ltac:(intros c; reflexivity)) as Q. replace (x2 +v (dt * 1) *v total nothing nothing x2) with x2 in Q; [exact Q|]. unfold total, nothing. vring. }
    exists x4. split.
    { exists x3. split; [apply (lift_apply tab_RK4 4 Increment h x2 ltac:(lia) O1)|]. exists x4. split; [apply (push_apply tab_RK4 4 Increment h x3 ltac:(lia) O1)|reflexivity]. }
    apply functional_extensionality. intros []; unfold x4, x3, x2, x1, x0, h, behind, lift, push; vunfold; rewrite S_INR; field.
Qed.
Print Assumptions strang_with_two_physics_schemes_refuted.

(** ** The hypotheses are met: Strang splitting of "lift" and "push" with SSPRK2 *)
Lemma lift_push_regular l : regular 2 (lift_push l) ballistic 0 1 1 everywhere.
Proof.
  assert (Z1 : bounded1 1 (fun _ : vec bool => vzero)) by (split; [split; intros; vring|intros v r H i; unfold vzero; rewrite Rabs_R0; pose proof (sup_ge0 v r true H); lra]).
  assert (Z2 : bounded2 1 (fun _ _ : vec bool => vzero)).
  { split; [intros w; split; intros; vring|]. split; [intros w; split; intros; vring|]. intros v w r s Hv Hw i. unfold vzero. rewrite Rabs_R0. pose proof (sup_ge0 v r true Hv). pose proof (sup_ge0 w s true Hw). rewrite Rmult_1_l. apply Rmult_le_pos; assumption. }
  assert (Z3 : bounded3 1 (fun _ _ _ : vec bool => vzero)).
  { split; [intros; split; intros; vring|]. split; [intros; split; intros; vring|]. split; [intros; split; intros; vring|]. intros u v w r s t Hu Hv Hw i. unfold vzero. rewrite Rabs_R0. pose proof (sup_ge0 u r true Hu). pose proof (sup_ge0 v s true Hv). pose proof (sup_ge0 w t true Hw). rewrite Rmult_1_l. repeat apply Rmult_le_pos; assumption. }
  unfold lift_push. destruct (String.eqb l "lift"); (split; [|split; [exists 1; split; [lra|intros; exact Logic.I]|]]).
  - split; [lra|]. intros x z rho _ _ H i. pose proof (sup_ge0 _ _ true H). destruct i; unfold lift; vunfold; [rewrite Rmult_1_l; apply (H false)|rewrite Rminus_diag_eq by reflexivity; rewrite Rabs_R0; lra].
  - exists (fun _ => lift), (fun _ _ _ => vzero), (fun _ _ _ _ => vzero), 1, 1. split; [lra|]. split; [lra|]. intros x (t & Ht & ->). split; [|split; [|split; [exact Z2|split; [exact Z3|]]]].
    + intros []; unfold lift, ballistic; [rewrite Rabs_pos_eq; lra|rewrite Rabs_R0; lra].
    + split; [split; intros; apply functional_extensionality; intros []; unfold lift; vunfold; ring|]. intros v r H i. pose proof (sup_ge0 _ _ true H). destruct i; unfold lift; [rewrite Rmult_1_l; apply (H false)|rewrite Rabs_R0; lra].
    + intros v rho H _ i. pose proof (sup_ge0 _ _ true H). unfold taylor. cbn [Nat.leb]. vunfold. replace (lift (fun i0 => ballistic t i0 + v i0) i - (lift (ballistic t) i + lift v i + 0 + 0)) with 0 by (destruct i; unfold lift; ring). rewrite Rabs_R0. rewrite Rmult_1_l. apply pow_le. assumption.
  - split; [lra|]. intros x z rho _ _ H i. pose proof (sup_ge0 _ _ true H). unfold push. vunfold. rewrite Rminus_diag_eq by reflexivity. rewrite Rabs_R0. lra.
  - exists (fun _ _ => vzero), (fun _ _ _ => vzero), (fun _ _ _ _ => vzero), 1, 1. split; [lra|]. split; [lra|]. intros x (t & Ht & ->). split; [|split; [exact Z1|split; [exact Z2|split; [exact Z3|]]]].
    + intros []; unfold push; [rewrite Rabs_R0; lra|rewrite Rabs_R1; lra].
    + intros v rho H _ i. pose proof (sup_ge0 _ _ true H). unfold taylor. cbn [Nat.leb]. vunfold. replace (push (fun i0 => ballistic t i0 + v i0) i - (push (ballistic t) i + 0 + 0 + 0)) with 0 by (unfold push; ring). rewrite Rabs_R0. rewrite Rmult_1_l. apply pow_le. assumption.
Qed.
Theorem strang_example :
  let todo := [("lift"%string, 1/2); ("push"%string, 1); ("lift"%string, 1/2)] in
  converges_at 2 (split_step (fun _ => ExplicitSub tab_SSPRK2_2 2 Increment) lift_push [] todo) ballistic 0 1 /\
  forall x, exists x', split_step (fun _ => ExplicitSub tab_SSPRK2_2 2 Increment) lift_push [] todo (1/4) x x'.
Proof.
  cbv zeta. pose proof (proj1 (proj2 explicit_schemes_have_advertised_order)) as O2. split.
  - apply (strang_splitting_second_order bool ["lift"%string; "push"%string] (fun _ => ExplicitSub tab_SSPRK2_2 2 Increment) lift_push [] _ ballistic 0 1 1).
    + exists [true; false]. intros []; cbn; tauto.
    + lra.
    + constructor.
      * split; [repeat constructor; cbn; intuition discriminate|]. split; [cbn; intuition discriminate|]. intros l w [E|[E|[E|[]]]]; injection E as <- _; right; cbn; tauto.
      * intros l [<-|[<-|[]]]; cbn; lra.
      * intros N. contradiction.
      * intros l _. cbn [sub_order]. split; [lia|]. split; [apply table_bounded|exact O2].
      * intros sc P [].
      * intros l w w' _ _ _ K. discriminate K.
      * intros w w' sc P _ _ [].
    + reflexivity.
    + cbn; lia.
    + intros l _. apply lift_push_regular.
    + intros P [].
    + intros t i _. destruct i; cbn.
      * unfold full_rhs, lift_push, ballistic. cbn. unfold vadd, vzero, lift, push. replace (0 + t + 0 + 0) with (/ 2 * (INR 2 * t ^ pred 2)) by (cbn; field).
        assert (E : (fun u : R => u * (u * 1) / 2) = mult_real_fct (/ 2) (fun u => u ^ 2)) by (apply functional_extensionality; intros u; unfold mult_real_fct; cbn; field). rewrite E.
        apply derivable_pt_lim_scal. apply derivable_pt_lim_pow.
      * unfold full_rhs, lift_push, ballistic. cbn. unfold vadd, vzero, lift, push. replace (0 + 0 + 1 + 0) with 1 by ring. apply derivable_pt_lim_id.
  - intros x. set (h := 1/4 * (1/2)). set (x1 := x +v h *v lift x). set (x2 := x1 +v (1/4 * 1) *v push x1). set (x3 := x2 +v h *v lift x2). exists x3.
    unfold split_step. cbn [substeps String.eqb Ascii.eqb Bool.eqb used_weight keeps_first_dt]. fold h.
    exists x1. split; [apply (lift_apply tab_SSPRK2_2 2 Increment h x ltac:(lia) (proj1 O2))|]. exists x2. split; [apply (push_apply tab_SSPRK2_2 2 Increment (1/4 * 1) x1 ltac:(lia) (proj1 O2))|].
    exists x3. split; [apply (lift_apply tab_SSPRK2_2 2 Increment h x2 ltac:(lia) (proj1 O2))|]. reflexivity.
Qed.
Print Assumptions strang_example.
