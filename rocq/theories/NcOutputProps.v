(** Netcdf field output: what is in the file after a run does not depend on the number of ranks, on parallel netCDF being there, or on the order in
    which ranks write; every value is in the row of its coordinates. *)
From Coq Require Import List String Bool Arith Lia Permutation.
Import ListNotations.
From Verif Require Import Base NcOutput.
Open Scope nat_scope.
Open Scope list_scope.

Section Generic.
Context {A : Type}.
Lemma interleaved_perm (ls : list (list A)) out : interleaved ls out -> Permutation (concat ls) out.
Proof.
  induction 1 as [ls H|ls1 x l ls2 out H IH].
  - induction H as [|l ls E _ IH]; [constructor|]. subst l. exact IH.
  - rewrite concat_app in *. cbn [concat] in *. rewrite <- IH. symmetry. cbn. apply Permutation_middle.
Qed.
Lemma interleaved_in (ls : list (list A)) out x : interleaved ls out -> (In x out <-> exists l, In l ls /\ In x l).
Proof.
  intros H. apply interleaved_perm in H. split.
  - intros Hx. apply (Permutation_in _ (Permutation_sym H)) in Hx. apply in_concat in Hx. exact Hx.
  - intros Hx. apply (Permutation_in _ H). apply in_concat. exact Hx.
Qed.
(** the ranks one after the other is one of the orders *)
Lemma interleaved_concat (ls : list (list A)) : interleaved ls (concat ls).
Proof.
  assert (E : forall ls0 ls : list (list A), Forall (fun l => l = []) ls0 -> @interleaved A (ls0 ++ ls) (concat ls)).
  { intros ls0 ls1. revert ls0. induction ls1 as [|l ls1 IH]; intros ls0 H0.
    - apply int_done. rewrite app_nil_r. exact H0.
    - cbn [concat]. induction l as [|x l IHl].
      + cbn. replace (ls0 ++ [] :: ls1) with ((ls0 ++ [[]]) ++ ls1) by (rewrite <- app_assoc; reflexivity). apply IH. apply Forall_app. split; [exact H0|]. repeat constructor.
      + cbn. constructor. exact IHl. }
  apply (E [] ls). constructor.
Qed.
End Generic.

Section Props.
Context {V : Type}.
Notation ncfile := (ncfile V).
Notation space := (space V).
Notation parts := (parts V).
Notation wr := (wr V).
Definition value (F : ncfile) (v : var) (i j : nat) : option V := match F v with Some (_, a) => a i j | None => None end.
Definition covered (ws : list wr) (v : var) (i j : nat) : Prop := exists start l, In (Put v start l j) ws /\ start <= i < start + length l.
Section Target.
Variables (dim : var -> nat) (T : var -> nat -> nat -> option V).
Definition ok_write (w : wr) : Prop :=
  match w with
  | New v n => n = dim v
  | Put v start l idx => start + length l <= dim v /\ forall k x, nth_error l k = Some x -> T v (start + k) idx = Some x
  end.
Definition dims_ok (F : ncfile) : Prop := forall v n a, F v = Some (n, a) -> n = dim v.
Definition adds (w : wr) (v : var) : Prop := match w with New v' _ => v = v' | Put _ _ _ _ => False end.
Inductive guarded : (var -> Prop) -> list wr -> Prop :=
| g_nil : forall K : var -> Prop, guarded K []
| g_cons : forall (K : var -> Prop) w ws, (forall v s l i, w = Put v s l i -> K v) -> guarded (fun v => K v \/ adds w v) ws -> guarded K (w :: ws).
Lemma guarded_mono ws : forall K K' : var -> Prop, (forall v, K v -> K' v) -> guarded K ws -> guarded K' ws.
Proof.
  induction ws as [|w ws IH]; intros K K' HK H; [constructor|]. inversion H as [|K0 w0 ws0 Hp Hr]; subst. constructor.
  - intros v s l i E. apply HK. eapply Hp. exact E.
  - eapply IH; [|exact Hr]. intros v [Hv|Hv]; auto.
Qed.
Lemma guarded_interleaved (ls : list (list wr)) out : interleaved ls out -> forall K, Forall (guarded K) ls -> guarded K out.
Proof.
  induction 1 as [ls H|ls1 x l ls2 out H IH]; intros K G; [constructor|]. apply Forall_app in G. destruct G as [G1 G2]. inversion G2 as [|? ? G3 G4]; subst.
  inversion G3 as [|K0 w0 ws0 Hp Hr]; subst. constructor; [exact Hp|]. apply IH. apply Forall_app. split.
  - eapply Forall_impl; [|exact G1]. intros l0 Hl. eapply guarded_mono; [|exact Hl]. auto.
  - constructor; [exact Hr|]. eapply Forall_impl; [|exact G4]. intros l0 Hl. eapply guarded_mono; [|exact Hl]. auto.
Qed.
Lemma guarded_app K l1 l2 : guarded K l1 -> guarded (fun v => K v \/ exists w, In w l1 /\ adds w v) l2 -> guarded K (l1 ++ l2).
Proof.
  intros H. induction H as [K|K w ws Hp Hr IH]; intros H2.
  - cbn. eapply guarded_mono; [|exact H2]. intros v [Hv|(w & [] & _)]; exact Hv.
  - cbn. constructor; [exact Hp|]. apply IH. eapply guarded_mono; [|exact H2]. intros v [Hv|(w' & [->|Hw] & Ha)]; eauto.
Qed.
Lemma put_value start (l : list V) (a : nat -> option V) i : put start l a i = (if (start <=? i) && (i <? start + length l) then nth_error l (i - start) else a i).
Proof. reflexivity. Qed.
Lemma run_ok : forall ws F, Forall ok_write ws -> dims_ok F -> guarded (fun v => F v <> None) ws ->
  exists F', do_writes F ws = Ok F' /\ dims_ok F' /\ (forall v, F' v <> None <-> F v <> None \/ exists n, In (New v n) ws) /\
  (forall v i j, covered ws v i j -> value F' v i j = T v i j) /\ (forall v i j, ~ covered ws v i j -> value F' v i j = value F v i j).
Proof.
  induction ws as [|w ws IH]; intros F Hok HF HG.
  - exists F. cbn. split; [reflexivity|]. split; [exact HF|]. split; [|split].
    + intros v. split; [auto|]. intros [H|(n & [])]. exact H.
    + intros v i j (s & l & [] & _).
    + reflexivity.
  - inversion Hok as [|? ? Hw Hws]; subst. inversion HG as [|K w0 ws0 Hp Hr]; subst. cbn [do_writes].
    assert (S1 : exists F1, do_write F w = Ok F1 /\ dims_ok F1 /\ (forall v, F1 v <> None <-> F v <> None \/ adds w v) /\
      (forall v i j, covered [w] v i j -> value F1 v i j = T v i j) /\ (forall v i j, ~ covered [w] v i j -> value F1 v i j = value F v i j)).
    { destruct w as [v n|v start l idx].
      - cbn in Hw. subst n. cbn [do_write]. eexists. split; [reflexivity|]. split; [|split; [|split]].
        + intros v' n a. cbn. destruct (var_eq_dec v' v) as [->|N]; [|apply HF]. destruct (F v) as [[n0 a0]|] eqn:E; intros Q; injection Q as <- <-; [eapply HF; exact E|reflexivity].
        + intros v'. cbn. destruct (var_eq_dec v' v) as [->|N].
          * split; [auto|]. intros _. destruct (F v) as [x|]; discriminate.
          * split; [auto|]. intros [H|H]; [exact H|contradiction].
        + intros v' i j (s & l & [H|[]] & _). discriminate.
        + intros v' i j _. unfold value. destruct (var_eq_dec v' v) as [->|N]; [|reflexivity]. destruct (F v) as [[n0 a0]|]; reflexivity.
      - destruct Hw as [Hd HT]. cbn [do_write]. pose proof (Hp v start l idx eq_refl) as Hv. destruct (F v) as [[n a]|] eqn:E; [|congruence].
        pose proof (HF _ _ _ E) as ->. destruct (Nat.leb_spec (start + length l) (dim v)) as [_|]; [|lia]. eexists. split; [reflexivity|]. split; [|split; [|split]].
        + intros v' n a'. cbn. destruct (var_eq_dec v' v) as [->|N]; [|apply HF]. intros Q; injection Q as <- <-. reflexivity.
        + intros v'. cbn. destruct (var_eq_dec v' v) as [->|N]; [|tauto]. rewrite E. split; [intros _; left|intros _]; discriminate.
        + intros v' i j (s & l0 & [H|[]] & Hi). injection H as -> -> -> ->. unfold value. destruct (var_eq_dec v' v') as [_|]; [|congruence]. rewrite Nat.eqb_refl, put_value.
          destruct (Nat.leb_spec s i); [|lia]. destruct (Nat.ltb_spec i (s + length l0)); [|lia]. cbn.
          destruct (nth_error l0 (i - s)) as [x|] eqn:Ex; [|apply nth_error_None in Ex; lia]. rewrite <- (HT _ _ Ex). f_equal. lia.
        + intros v' i j Hn. unfold value. destruct (var_eq_dec v' v) as [->|N]; [|reflexivity]. rewrite E. destruct (Nat.eqb_spec j idx) as [->|]; [|reflexivity]. rewrite put_value.
          destruct (Nat.leb_spec start i); [|reflexivity]. destruct (Nat.ltb_spec i (start + length l)); [|reflexivity]. exfalso. apply Hn. exists start, l. split; [left; reflexivity|lia]. }
    destruct S1 as (F1 & E1 & D1 & X1 & C1 & N1). rewrite E1. cbn [bind].
    destruct (IH F1 Hws D1) as (F2 & E2 & D2 & X2 & C2 & N2).
    { eapply guarded_mono; [|exact Hr]. intros v. apply X1. }
    exists F2. split; [exact E2|]. split; [exact D2|]. split; [|split].
    + intros v. rewrite X2, X1. split.
      * intros [[H|H]|(n & H)]; [auto| |right; exists n; right; exact H]. destruct w as [v' n|]; [|contradiction]. cbn in H. subst. right. exists n. left. reflexivity.
      * intros [H|(n & [->|H])]; [auto|left; right; reflexivity|right; exists n; exact H].
    + intros v i j Hc. assert (Hdec : covered ws v i j \/ ~ covered ws v i j).
      { clear. induction ws as [|w ws IH]; [right; intros (s & l & [] & _)|]. destruct IH as [(s & l & H & Hi)|Hn]; [left; exists s, l; split; [right; exact H|exact Hi]|].
        destruct w as [v' n|v' s l j'].
        - right. intros (s & l & [H|H] & Hi); [discriminate|]. apply Hn. exists s, l. auto.
        - destruct (var_eq_dec v' v) as [->|Nv]; [destruct (Nat.eq_dec j' j) as [->|Nj]; [destruct (le_lt_dec s i); [destruct (lt_dec i (s + length l))|]|]|].
          + left. exists s, l. split; [left; reflexivity|lia].
          + right. intros (s9 & l9 & [H|H] & Hi); [injection H as -> ->; lia|]. apply Hn. exists s9, l9. auto.
          + right. intros (s9 & l9 & [H|H] & Hi); [injection H as -> ->; lia|]. apply Hn. exists s9, l9. auto.
          + right. intros (s9 & l9 & [H|H] & Hi); [injection H as -> ->; congruence|]. apply Hn. exists s9, l9. auto.
          + right. intros (s9 & l9 & [H|H] & Hi); [injection H as -> ->; congruence|]. apply Hn. exists s9, l9. auto. }
      destruct Hdec as [H2|H2]; [apply C2; exact H2|]. rewrite (N2 _ _ _ H2). apply C1. destruct Hc as (s & l & [H|H] & Hi); [exists s, l; split; [left; exact H|exact Hi]|].
      exfalso. apply H2. exists s, l. auto.
    + intros v i j Hc. rewrite N2, N1; [reflexivity| |].
      * intros (s & l & [H|[]] & Hi). apply Hc. exists s, l. split; [left; exact H|exact Hi].
      * intros (s & l & H & Hi). apply Hc. exists s, l. split; [right; exact H|exact Hi].
Qed.
End Target.

(** ** Rows: the degrees of freedom of rank 0 first, then those of rank 1, ... *)
Definition lens (p : parts) : list nat := map (@length V) p.
Definition before (n : list nat) (r : nat) : nat := sum (firstn r n).
Lemma before_S l (p : parts) r : before (lens (l :: p)) (S r) = length l + before (lens p) r.
Proof. reflexivity. Qed.
Lemma before_0 (n : list nat) : before n 0 = 0.
Proof. reflexivity. Qed.
Lemma sum_S l (p : parts) : sum (lens (l :: p)) = length l + sum (lens p).
Proof. reflexivity. Qed.
Lemma length_concat (p : parts) : length (concat p) = sum (lens p).
Proof. induction p as [|l p IH]; [reflexivity|]. cbn. rewrite app_length, IH. reflexivity. Qed.
Lemma concat_row (p : parts) : forall r k, k < length (nth r p []) -> nth_error (concat p) (before (lens p) r + k) = nth_error (nth r p []) k.
Proof.
  induction p as [|l p IH]; intros r k Hk; [destruct r; cbn in Hk; lia|]. destruct r as [|r]; cbn [nth concat] in *.
  - rewrite before_0. cbn [Nat.add]. rewrite nth_error_app1 by exact Hk. reflexivity.
  - rewrite before_S, nth_error_app2 by lia. rewrite <- (IH r k Hk). f_equal. lia.
Qed.
Lemma row_onto (p : parts) : forall i, i < sum (lens p) -> exists r k, r < length p /\ k < length (nth r p []) /\ i = before (lens p) r + k.
Proof.
  induction p as [|l p IH]; intros i Hi; [cbn in Hi; lia|]. rewrite sum_S in Hi. destruct (lt_dec i (length l)) as [H|H].
  - exists 0, i. rewrite before_0. cbn [nth length]. repeat split; lia.
  - destruct (IH (i - length l)) as (r & k & H1 & H2 & H3); [lia|]. exists (S r), k. rewrite before_S. cbn [nth length]. repeat split; [lia|exact H2|lia].
Qed.
Lemma row_bound (p : parts) : forall r, before (lens p) r + length (nth r p []) <= sum (lens p).
Proof.
  induction p as [|l p IH]; intros r; [destruct r; cbn; lia|]. rewrite sum_S. destruct r as [|r]; cbn [nth]; [rewrite before_0; lia|]. rewrite before_S. specialize (IH r). lia.
Qed.
(** different degrees of freedom have different rows *)
Lemma row_injective (p : parts) : forall r k r' k', k < length (nth r p []) -> k' < length (nth r' p []) -> before (lens p) r + k = before (lens p) r' + k' -> r = r' /\ k = k'.
Proof.
  induction p as [|l p IH]; intros r k r' k' H H' E; [destruct r; cbn in H; lia|].
  destruct r as [|r], r' as [|r']; rewrite ?before_0, ?before_S in E; cbn [nth] in H, H'; try lia.
  destruct (IH r k r' k' H H') as [-> ->]; [lia|]. auto.
Qed.

Section Run.
Variables (parallel : bool) (size : nat) (spaces : list space) (fields : list (string * string)).
Definition layout (s : space) : list nat := match s_coords s with (_, p) :: _ => lens p | [] => [] end.
(** a space has coordinates, and they are held by the same ranks as the degrees of freedom *)
Record good_space (s : space) : Prop := { g_some : s_coords s <> []; g_size : length (layout s) = size;
  g_lens : forall c p, In (c, p) (s_coords s) -> lens p = layout s; g_names : NoDup (map fst (s_coords s)) }.
Definition space_of (f : string) : option space := match find (fun fs => String.eqb (fst fs) f) fields with Some fs => registered spaces (snd fs) | None => None end.
Definition good_data (data : string -> parts) : Prop := forall f s, space_of f = Some s -> lens (data f) = layout s.
Variable good : forall n s, registered spaces n = Some s -> good_space s.
Variable ranks : 0 < size.
Variable distinct : NoDup (map fst fields).
Lemma space_of_in f sn : In (f, sn) fields -> space_of f = registered spaces sn.
Proof.
  intros H. unfold space_of. revert H. induction fields as [|[g sg] l IH]; [intros []|]. cbn [map fst] in distinct. inversion distinct as [|? ? N D]; subst. cbn [find fst].
  destruct (String.eqb_spec g f) as [->|Ng].
  - intros [E|Hin]; [injection E as ->; reflexivity|]. exfalso. apply N. apply in_map_iff. exists (f, sn). auto.
  - intros [E|Hin]; [injection E as -> ->; congruence|]. apply IH; auto.
Qed.
Lemma space_of_some f s : space_of f = Some s -> exists sn, In (f, sn) fields /\ registered spaces sn = Some s.
Proof.
  unfold space_of. destruct (find _ fields) as [[g sn]|] eqn:E; [|discriminate]. intros H. apply find_some in E. cbn in E. destruct E as [Hin Eq]. apply String.eqb_eq in Eq. subst g. eauto.
Qed.
Lemma good_of f s : space_of f = Some s -> good_space s.
Proof. intros H. destruct (space_of_some _ _ H) as (sn & _ & E). exact (good _ _ E). Qed.
Lemma ndofs_layout s : ndofs s = sum (layout s).
Proof. unfold ndofs, layout. destruct (s_coords s) as [|[c p] l]; reflexivity. Qed.
Lemma lims_layout s r : fst (lims_of s r) = before (layout s) r.
Proof. unfold lims_of, layout, before, array_lims, exscan. destruct (s_coords s) as [|[c p] l]; [destruct r; reflexivity|]. destruct r; reflexivity. Qed.
Lemma writes_app l1 l2 : writes_of (V := V) (l1 ++ l2) = writes_of l1 ++ writes_of l2.
Proof. apply flat_map_app. Qed.
Lemma array_writes r what s (p : parts) mk w : good_space s -> lens p = layout s -> r < size ->
  (In w (writes_of (array_events parallel size r what s p mk)) <->
   (parallel = true /\ w = mk (before (layout s) r) (nth r p [])) \/ (parallel = false /\ r = 0 /\ w = mk 0 (concat p))).
Proof.
  intros Gs Hl Hr. unfold array_events. destruct parallel.
  - cbn. rewrite lims_layout. split; [intros [<-|[]]; auto|]. intros [[_ ->]|[H _]]; [auto|discriminate].
  - rewrite writes_app. assert (E : writes_of (V := V) (gather_calls size what) = []) by (unfold gather_calls; destruct (size =? 1); reflexivity). rewrite E. cbn [app].
    destruct (Nat.eqb_spec r 0) as [->|N].
    + assert (Eg : gathered p 0 = Some (concat p)).
      { unfold gathered. destruct (Nat.eqb_spec (length p) 1) as [E1|N1]; [|reflexivity]. destruct p as [|l [|l' p]]; cbn in E1; try lia. cbn. rewrite app_nil_r. reflexivity. }
      rewrite Eg. cbn. split; [intros [<-|[]]; auto|]. intros [[H _]|(_ & _ & ->)]; [discriminate|auto].
    + cbn. split; [intros []|]. intros [[H _]|(_ & H & _)]; [discriminate|lia].
Qed.
Lemma array_writes_ok dim (T : var -> nat -> nat -> option V) r what s (p : parts) v idx w : good_space s -> lens p = layout s -> r < size -> dim v = ndofs s ->
  (forall i x, nth_error (concat p) i = Some x -> T v i idx = Some x) ->
  In w (writes_of (array_events parallel size r what s p (fun start l => Put v start l idx))) -> ok_write dim T w.
Proof.
  intros Gs Hl Hr Hd HT Hw. apply array_writes in Hw; auto. destruct Hw as [[_ ->]|(_ & _ & ->)]; cbn; rewrite Hd, ndofs_layout, <- Hl.
  - split; [apply row_bound|]. intros k x Hx. apply HT. rewrite concat_row; [exact Hx|]. apply nth_error_Some. congruence.
  - rewrite length_concat. split; [lia|]. intros k x Hx. apply HT. exact Hx.
Qed.
Lemma array_covers s (p : parts) v idx i : good_space s -> lens p = layout s -> i < ndofs s ->
  exists r start l, r < size /\ start <= i < start + length l /\ (forall what, In (Put v start l idx) (writes_of (array_events parallel size r what s p (fun start l => Put v start l idx)))).
Proof.
  intros Gs Hl Hi. rewrite ndofs_layout, <- Hl in Hi. assert (Hs : length p = size) by (rewrite <- (g_size _ Gs), <- Hl; unfold lens; rewrite map_length; reflexivity). destruct parallel eqn:P.
  - destruct (row_onto p i Hi) as (r & k & H1 & H2 & ->). exists r, (before (layout s) r), (nth r p []). split; [lia|]. rewrite <- Hl. split; [lia|]. intros what. rewrite <- P.
    apply (array_writes r what s p); auto; [lia|]. left. rewrite Hl. auto.
  - exists 0, 0, (concat p). split; [exact ranks|]. split; [rewrite length_concat; lia|]. intros what. rewrite <- P. apply (array_writes 0 what s p); auto.
Qed.
Lemma writes_flat {B} (g : B -> list (event V)) l : writes_of (flat_map g l) = flat_map (fun b => writes_of (g b)) l.
Proof. induction l as [|b l IH]; [reflexivity|]. cbn [flat_map]. rewrite writes_app, IH. reflexivity. Qed.
Lemma writes_open l : writes_of (V := V) (open_close parallel l) = writes_of l.
Proof. unfold open_close. destruct parallel; [|reflexivity]. rewrite !writes_app. cbn. apply app_nil_r. Qed.
Lemma writes_when r (w : wr) : writes_of (when_file parallel r [Write w]) = if has_file parallel r then [w] else [].
Proof. unfold when_file. destruct (has_file parallel r); reflexivity. Qed.

(** ** One dump *)
Definition dimv (v : var) : nat :=
  match v with
  | VTime => 1
  | VCoord n _ => match registered spaces n with Some s => ndofs s | None => 0 end
  | VField f => match space_of f with Some s => ndofs s | None => 0 end
  end.
Definition ready (F : ncfile) : Prop := dims_ok dimv F /\ F VTime <> None /\ forall f s, space_of f = Some s -> F (VField f) <> None.
Definition dump_writes (data : string -> parts) idx t r : list wr := writes_of (dump_events parallel size r spaces fields data idx t).
Lemma dump_writes_in data idx t r w : In w (dump_writes data idx t r) <->
  (has_file parallel r = true /\ w = Put VTime 0 [t] idx) \/
  exists f sn s, In (f, sn) fields /\ registered spaces sn = Some s /\ In w (writes_of (array_events parallel size r f s (data f) (fun start l => Put (VField f) start l idx))).
Proof.
  unfold dump_writes, dump_events. rewrite writes_open, !writes_app, writes_when, writes_flat.
  assert (E : writes_of (V := V) (if parallel then [Together "time"] else []) = []) by (destruct parallel; reflexivity). rewrite E. cbn [app]. rewrite in_app_iff, in_flat_map. split.
  - intros [H|([f sn] & Hin & H)].
    + left. destruct (has_file parallel r); [|contradiction]. destruct H as [<-|[]]. auto.
    + right. cbn [fst snd] in H. destruct (registered spaces sn) as [s|] eqn:Er; [|contradiction]. exists f, sn, s. auto.
  - intros [[-> ->]|(f & sn & s & Hin & Er & H)]; [left; left; reflexivity|]. right. exists (f, sn). split; [exact Hin|]. cbn [fst snd]. rewrite Er. exact H.
Qed.
Definition after_dump (t : V) (data : string -> parts) (v : var) (i : nat) (old : option V) : option V :=
  match v with
  | VTime => if i =? 0 then Some t else old
  | VCoord _ _ => old
  | VField f => match space_of f with Some s => if i <? ndofs s then nth_error (concat (data f)) i else old | None => old end
  end.
Lemma guarded_puts (K : var -> Prop) (ws : list wr) : (forall w, In w ws -> exists v s l i, w = Put v s l i /\ K v) -> guarded K ws.
Proof.
  revert K. induction ws as [|w ws IH]; intros K H; [constructor|]. constructor.
  - intros v s l i ->. destruct (H _ (or_introl eq_refl)) as (v' & s' & l' & i' & E & HK). injection E as -> _ _ _. exact HK.
  - apply IH. intros w' Hw'. destruct (H w' (or_intror Hw')) as (v & s & l & i & -> & HK). exists v, s, l, i. auto.
Qed.
Lemma one_dump data idx t F ws : good_data data -> ready F -> interleaved (map (dump_writes data idx t) (seq 0 size)) ws ->
  exists F', do_writes F ws = Ok F' /\ ready F' /\ forall v i j, value F' v i j = if j =? idx then after_dump t data v i (value F v i j) else value F v i j.
Proof.
  intros Hd [HF [Ht Hv]] Hi.
  assert (Hin : forall w, In w ws <-> exists r, r < size /\ In w (dump_writes data idx t r)).
  { intros w. rewrite (interleaved_in _ _ w Hi). split.
    - intros (l & Hl & Hw). apply in_map_iff in Hl. destruct Hl as (r & <- & Hr). apply in_seq in Hr. exists r. split; [lia|exact Hw].
    - intros (r & Hr & Hw). exists (dump_writes data idx t r). split; [|exact Hw]. apply in_map_iff. exists r. split; [reflexivity|]. apply in_seq. lia. }
  set (T := fun v i (j : nat) => match v with VTime => if i =? 0 then Some t else None | VCoord _ _ => None | VField f => nth_error (concat (data f)) i end).
  assert (Hshape : forall w, In w ws -> ok_write dimv T w /\ exists v s l, w = Put v s l idx /\ F v <> None).
  { intros w Hw. apply Hin in Hw. destruct Hw as (r & Hr & Hw). apply dump_writes_in in Hw. destruct Hw as [[_ ->]|(f & sn & s & Hfs & Er & Hw)].
    - split; [|eauto 6]. cbn. split; [lia|]. intros [|[|k]] x Hx; cbn in Hx; [exact Hx|discriminate|discriminate].
    - pose proof (space_of_in _ _ Hfs) as Es. rewrite Er in Es. split.
      + eapply (array_writes_ok dimv T r f s (data f) (VField f) idx); [apply (good _ _ Er)|apply (Hd _ _ Es)|exact Hr|cbn; rewrite Es; reflexivity| |exact Hw]. intros i x Hx. exact Hx.
      + apply array_writes in Hw; [|apply (good _ _ Er)|apply (Hd _ _ Es)|exact Hr]. destruct Hw as [[_ ->]|(_ & _ & ->)]; do 3 eexists; (split; [reflexivity|]); eapply Hv; exact Es. }
  destruct (run_ok dimv T ws F) as (F' & E & D & X & C & N).
  - apply Forall_forall. intros w Hw. apply Hshape. exact Hw.
  - exact HF.
  - apply guarded_puts. intros w Hw. destruct (Hshape w Hw) as (_ & v & s & l & -> & HK). eauto 8.
  - exists F'. split; [exact E|]. split; [split; [exact D|split; [apply X; auto|intros f s Hs; apply X; left; eapply Hv; exact Hs]]|].
    intros v i j.
    assert (Hnew : forall start l, In (Put v start l j) ws -> j = idx) by (intros start l Hw; destruct (Hshape _ Hw) as (_ & v0 & s0 & l0 & E0 & _); injection E0; auto).
    destruct (Nat.eqb_spec j idx) as [->|Nj].
    2:{ apply N. intros (start & l & Hw & _). apply Nj. eapply Hnew. exact Hw. }
    destruct v as [|n c|f]; cbn [after_dump].
    + destruct (Nat.eqb_spec i 0) as [->|Ni].
      * apply C. exists 0, [t]. split; [|cbn; lia]. apply Hin. exists 0. split; [exact ranks|]. apply dump_writes_in. left. split; [|reflexivity]. unfold has_file. rewrite orb_true_r. reflexivity.
      * apply N. intros (start & l & Hw & Hr). apply Hin in Hw. destruct Hw as (r & Hr' & Hw). apply dump_writes_in in Hw. destruct Hw as [[_ H]|(f & sn & s & Hfs & Er & Hw)].
        -- injection H as -> ->. cbn in Hr. lia.
        -- pose proof (space_of_in _ _ Hfs) as Es. rewrite Er in Es. apply array_writes in Hw; [|apply (good _ _ Er)|apply (Hd _ _ Es)|exact Hr']. destruct Hw as [[_ H]|(_ & _ & H)]; discriminate.
    + apply N. intros (start & l & Hw & Hr). apply Hin in Hw. destruct Hw as (r & Hr' & Hw). apply dump_writes_in in Hw. destruct Hw as [[_ H]|(f & sn & s & Hfs & Er & Hw)]; [discriminate|].
      pose proof (space_of_in _ _ Hfs) as Es. rewrite Er in Es. apply array_writes in Hw; [|apply (good _ _ Er)|apply (Hd _ _ Es)|exact Hr']. destruct Hw as [[_ H]|(_ & _ & H)]; discriminate.
    + assert (Hno : forall start l, In (Put (VField f) start l idx) ws -> exists s, space_of f = Some s /\ start + length l <= ndofs s).
      { intros start l Hw. destruct (Hshape _ Hw) as ((Hb & _) & _). cbn in Hb. apply Hin in Hw. destruct Hw as (r & Hr' & Hw). apply dump_writes_in in Hw.
        destruct Hw as [[_ H]|(g & sn & s & Hfs & Er & Hw)]; [discriminate|]. pose proof (space_of_in _ _ Hfs) as Es. rewrite Er in Es.
        apply array_writes in Hw; [|apply (good _ _ Er)|apply (Hd _ _ Es)|exact Hr']. assert (g = f) as -> by (destruct Hw as [[_ H]|(_ & _ & H)]; injection H; auto).
        rewrite Es in Hb. eauto. }
      destruct (space_of f) as [s|] eqn:Es.
      2:{ apply N. intros (start & l & Hw & _). destruct (Hno _ _ Hw) as (s & H & _). discriminate. }
      destruct (Nat.ltb_spec i (ndofs s)) as [Hlt|Hge].
      * change (nth_error (concat (data f)) i) with (T (VField f) i idx). apply C.
        destruct (array_covers s (data f) (VField f) idx i (good_of _ _ Es) (Hd _ _ Es) Hlt) as (r & start & l & Hr & Hc & Hw). exists start, l. split; [|exact Hc].
        apply Hin. exists r. split; [exact Hr|]. apply dump_writes_in. right. destruct (space_of_some _ _ Es) as (sn & Hfs & Er). exists f, sn, s. split; [exact Hfs|]. split; [exact Er|]. apply Hw.
      * apply N. intros (start & l & Hw & Hc). destruct (Hno _ _ Hw) as (s' & H & Hb). injection H as <-. lia.
Qed.

(** ** The creation of the file *)
Definition create_writes (names : list string) r : list wr := writes_of (create_events parallel size r spaces names fields).
Lemma create_writes_eq names r : create_writes names r =
  (if has_file parallel r then [New VTime 1] else []) ++
  flat_map (fun n => match registered spaces n with
                     | None => []
                     | Some s => flat_map (fun cp => (if has_file parallel r then [New (VCoord n (fst cp)) (ndofs s)] else []) ++
                                    writes_of (array_events parallel size r (fst cp) s (snd cp) (fun start l => Put (VCoord n (fst cp)) start l 0))) (s_coords s)
                     end) names ++
  flat_map (fun fs => match registered spaces (snd fs) with None => [] | Some s => if has_file parallel r then [New (VField (fst fs)) (ndofs s)] else [] end) fields.
Proof.
  unfold create_writes, create_events. rewrite writes_open, !writes_app, writes_when, !writes_flat. f_equal. f_equal.
  - apply flat_map_ext. intros n. destruct (registered spaces n) as [s|]; [|reflexivity]. rewrite writes_flat. apply flat_map_ext. intros cp. rewrite writes_app, writes_when. reflexivity.
  - apply flat_map_ext. intros fs. destruct (registered spaces (snd fs)); [apply writes_when|reflexivity].
Qed.
Lemma create_writes_in names r w : In w (create_writes names r) <->
  (has_file parallel r = true /\ w = New VTime 1) \/
  (exists n s c p, In n names /\ registered spaces n = Some s /\ In (c, p) (s_coords s) /\
     ((has_file parallel r = true /\ w = New (VCoord n c) (ndofs s)) \/ In w (writes_of (array_events parallel size r c s p (fun start l => Put (VCoord n c) start l 0))))) \/
  (exists f sn s, In (f, sn) fields /\ registered spaces sn = Some s /\ has_file parallel r = true /\ w = New (VField f) (ndofs s)).
Proof.
  assert (E1 : forall (x : wr), In w (if has_file parallel r then [x] else []) <-> has_file parallel r = true /\ w = x).
  { intros x. destruct (has_file parallel r); cbn; split; [intros [<-|[]]; auto|intros [_ ->]; auto|intros []|intros [H _]; discriminate]. }
  rewrite create_writes_eq, !in_app_iff, E1, !in_flat_map. split.
  - intros [H|[(n & Hn & H)|([f sn] & Hf & H)]]; [left; exact H|right; left|right; right].
    + destruct (registered spaces n) as [s|] eqn:Er; [|contradiction]. apply in_flat_map in H. destruct H as ([c p] & Hc & H). cbn [fst snd] in H. apply in_app_iff in H. rewrite E1 in H.
      exists n, s, c, p. auto.
    + cbn [fst snd] in H. destruct (registered spaces sn) as [s|] eqn:Er; [|contradiction]. rewrite E1 in H. exists f, sn, s. tauto.
  - intros [H|[(n & s & c & p & Hn & Er & Hc & H)|(f & sn & s & Hf & Er & H)]]; [left; exact H|right; left|right; right].
    + exists n. split; [exact Hn|]. rewrite Er. apply in_flat_map. exists (c, p). split; [exact Hc|]. cbn [fst snd]. apply in_app_iff. rewrite E1. exact H.
    + exists (f, sn). split; [exact Hf|]. cbn [fst snd]. rewrite Er, E1. exact H.
Qed.
Lemma guarded_flat {B} (g : B -> list wr) l (K : var -> Prop) : (forall b, In b l -> guarded K (g b)) -> guarded K (flat_map g l).
Proof.
  induction l as [|b l IH]; intros H; [constructor|]. cbn. apply guarded_app; [apply H; left; reflexivity|]. eapply guarded_mono; [|apply IH; intros b' Hb'; apply H; right; exact Hb']. auto.
Qed.
Definition coordinate (n c : string) : option parts :=
  match registered spaces n with Some s => option_map snd (find (fun cp => String.eqb (fst cp) c) (s_coords s)) | None => None end.
Lemma find_named (l : list (string * parts)) c p : NoDup (map fst l) -> In (c, p) l -> find (fun cp => String.eqb (fst cp) c) l = Some (c, p).
Proof.
  induction l as [|[c0 p0] l IH]; intros D Hin; [destruct Hin|]. cbn [map fst] in D. inversion D as [|? ? N D']; subst. cbn [find fst]. destruct (String.eqb_spec c0 c) as [->|Nc].
  - destruct Hin as [E|Hin]; [injection E as ->; reflexivity|]. exfalso. apply N. apply in_map_iff. exists (c, p). auto.
  - destruct Hin as [E|Hin]; [injection E as -> ->; congruence|]. apply IH; auto.
Qed.
Definition created (names : list string) (v : var) (i j : nat) : option V :=
  match v with
  | VCoord n c => if (j =? 0) && existsb (String.eqb n) names then match coordinate n c with Some p => nth_error (concat p) i | None => None end else None
  | _ => None
  end.
Lemma create_ok names ws : interleaved (map (create_writes names) (seq 0 size)) ws ->
  exists F, do_writes no_data ws = Ok F /\ ready F /\ forall v i j, value F v i j = created names v i j.
Proof.
  intros Hi.
  assert (Hin : forall w, In w ws <-> exists r, r < size /\ In w (create_writes names r)).
  { intros w. rewrite (interleaved_in _ _ w Hi). split.
    - intros (l & Hl & Hw). apply in_map_iff in Hl. destruct Hl as (r & <- & Hr). apply in_seq in Hr. exists r. split; [lia|exact Hw].
    - intros (r & Hr & Hw). exists (create_writes names r). split; [|exact Hw]. apply in_map_iff. exists r. split; [reflexivity|]. apply in_seq. lia. }
  set (T := fun v i (j : nat) => match v with VCoord n c => match coordinate n c with Some p => nth_error (concat p) i | None => None end | _ => None end).
  assert (Hput : forall v start l j, In (Put v start l j) ws -> exists n c s p, v = VCoord n c /\ j = 0 /\ In n names /\ registered spaces n = Some s /\ In (c, p) (s_coords s)).
  { intros v start l j Hw. apply Hin in Hw. destruct Hw as (r & Hr & Hw). apply create_writes_in in Hw. destruct Hw as [[_ H]|[(n & s & c & p & Hn & Er & Hc & [[_ H]|Hw])|(f & sn & s & _ & _ & _ & H)]]; try discriminate.
    exists n, c, s, p. apply array_writes in Hw; [|apply (good _ _ Er)|apply (g_lens _ (good _ _ Er) _ _ Hc)|exact Hr]. destruct Hw as [[_ H]|(_ & _ & H)]; injection H as -> -> -> ->; auto. }
  destruct (run_ok dimv T ws no_data) as (F & E & D & X & C & N).
  - apply Forall_forall. intros w Hw. apply Hin in Hw. destruct Hw as (r & Hr & Hw). apply create_writes_in in Hw.
    destruct Hw as [[_ ->]|[(n & s & c & p & Hn & Er & Hc & [[_ ->]|Hw])|(f & sn & s & Hf & Er & _ & ->)]].
    + reflexivity.
    + cbn. rewrite Er. reflexivity.
    + eapply (array_writes_ok dimv T r c s p (VCoord n c) 0); [apply (good _ _ Er)|apply (g_lens _ (good _ _ Er) _ _ Hc)|exact Hr|cbn; rewrite Er; reflexivity| |exact Hw].
      intros i x Hx. cbn. unfold coordinate. rewrite Er, (find_named _ c p (g_names _ (good _ _ Er)) Hc). exact Hx.
    + cbn. rewrite (space_of_in _ _ Hf), Er. reflexivity.
  - intros v n a H. discriminate.
  - apply (guarded_interleaved _ _ Hi). apply Forall_forall. intros l Hl. apply in_map_iff in Hl. destruct Hl as (r & <- & Hr). apply in_seq in Hr. rewrite create_writes_eq.
    assert (Hone : forall (K : var -> Prop) v n, guarded K (if has_file parallel r then [New (V := V) v n] else [])).
    { intros K v n. destruct (has_file parallel r); [|constructor]. constructor; [intros v' s l i H; discriminate|constructor]. }
    apply guarded_app; [apply Hone|]. apply guarded_app.
    + apply guarded_flat. intros n Hn. destruct (registered spaces n) as [s|] eqn:Er; [|constructor]. apply guarded_flat. intros [c p] Hc. cbn [fst snd]. apply guarded_app; [apply Hone|].
      apply guarded_puts. intros w Hw. apply array_writes in Hw; [|apply (good _ _ Er)|apply (g_lens _ (good _ _ Er) _ _ Hc)|lia].
      assert (Hf : has_file parallel r = true) by (unfold has_file; destruct Hw as [[-> _]|(_ & -> & _)]; [reflexivity|rewrite Nat.eqb_refl; apply orb_true_r]).
      rewrite Hf. destruct Hw as [[_ ->]|(_ & _ & ->)]; do 4 eexists; (split; [reflexivity|]); right; eexists; (split; [left; reflexivity|reflexivity]).
    + apply guarded_flat. intros [f sn] _. cbn [fst snd]. destruct (registered spaces sn); [apply Hone|constructor].
  - assert (H0 : has_file parallel 0 = true) by (unfold has_file; apply orb_true_r).
    exists F. split; [exact E|]. split; [split; [exact D|split]|].
    + apply X. right. exists 1. apply Hin. exists 0. split; [exact ranks|]. apply create_writes_in. left. auto.
    + intros f s Hs. apply X. right. exists (ndofs s). apply Hin. exists 0. split; [exact ranks|]. apply create_writes_in. right. right. destruct (space_of_some _ _ Hs) as (sn & Hf & Er). exists f, sn, s. auto.
    + intros v i j.
      assert (Hno : (forall n c s p, v = VCoord n c -> j = 0 -> In n names -> registered spaces n = Some s -> In (c, p) (s_coords s) -> False) -> value F v i j = None).
      { intros H. rewrite N; [reflexivity|]. intros (start & l & Hw & _). destruct (Hput _ _ _ _ Hw) as (n & c & s & p & Hv & Hj & Hn & Er & Hc). eapply H; eassumption. }
      destruct v as [|n c|f]; cbn [created]; [apply Hno; discriminate| |apply Hno; discriminate].
      destruct (Nat.eqb_spec j 0) as [->|Nj]; [|apply Hno; congruence]. cbn [andb].
      destruct (existsb (String.eqb n) names) eqn:Ex.
      2:{ apply Hno. intros n0 c0 s0 p0 H _ Hn _ _. injection H as <- <-. assert (existsb (String.eqb n) names = true) by (apply existsb_exists; exists n; split; [exact Hn|apply String.eqb_refl]). congruence. }
      apply existsb_exists in Ex. destruct Ex as (n' & Hn & En). apply String.eqb_eq in En. subst n'.
      unfold coordinate. destruct (registered spaces n) as [s|] eqn:Er; [|apply Hno; congruence].
      destruct (find (fun cp => String.eqb (fst cp) c) (s_coords s)) as [[c' p]|] eqn:Ef.
      * pose proof (find_some _ _ Ef) as [Hc Ec]. cbn in Ec. apply String.eqb_eq in Ec. subst c'. cbn [option_map snd].
        destruct (lt_dec i (ndofs s)) as [Hlt|Hge].
        -- rewrite C; [cbn; unfold coordinate; rewrite Er, Ef; reflexivity|].
           destruct (array_covers s p (VCoord n c) 0 i (good _ _ Er) (g_lens _ (good _ _ Er) _ _ Hc) Hlt) as (r & start & l & Hr & Hcov & Hw). exists start, l. split; [|exact Hcov].
           apply Hin. exists r. split; [exact Hr|]. apply create_writes_in. right. left. exists n, s, c, p. split; [exact Hn|]. split; [exact Er|]. split; [exact Hc|]. right. apply Hw.
        -- rewrite N.
           ++ symmetry. apply nth_error_None. rewrite length_concat, (g_lens _ (good _ _ Er) _ _ Hc), <- ndofs_layout. lia.
           ++ intros (start & l & Hw & Hcov). apply Hin in Hw. destruct Hw as (r & Hr & Hw). apply create_writes_in in Hw.
              destruct Hw as [[_ H]|[(n0 & s0 & c0 & p0 & Hn0 & Er0 & Hc0 & [[_ H]|Hw])|(f & sn & s0 & _ & _ & _ & H)]]; try discriminate.
              eapply (array_writes_ok dimv (fun v0 i0 _ => nth_error (concat p0) i0) r c0 s0 p0 (VCoord n0 c0) 0) in Hw; [|apply (good _ _ Er0)|apply (g_lens _ (good _ _ Er0) _ _ Hc0)|exact Hr|cbn; rewrite Er0; reflexivity|auto].
              destruct Hw as [Hb _]. cbn in Hb. rewrite Er in Hb. lia.
      * apply Hno. intros n0 c0 s0 p0 H _ _ Er0 Hc0. injection H as <- <-. rewrite Er in Er0. injection Er0 as <-. pose proof (find_none _ _ Ef _ Hc0) as H. cbn in H. rewrite String.eqb_refl in H. discriminate.
Qed.

(** ** A number of dumps *)
Lemma dumps_values : forall ds idx F F', (forall t d, In (t, d) ds -> good_data d) -> ready F -> dumps_done parallel size spaces fields idx ds F F' ->
  ready F' /\ forall v i j, value F' v i j = match nth_error ds (j - idx) with Some (t, d) => if idx <=? j then after_dump t d v i (value F v i j) else value F v i j | None => value F v i j end.
Proof.
  intros ds. induction ds as [|[t d] ds IH]; intros idx F F' Hd HR H; inversion H as [|idx0 t0 d0 rest F0 F1 F2 Hone Hrest]; subst.
  - split; [exact HR|]. intros v i j. destruct (j - idx); reflexivity.
  - destruct Hone as (ws & Hi & Hw). destruct (one_dump d idx t F ws (Hd t d (or_introl eq_refl)) HR Hi) as (F1' & E & R1 & V1). rewrite E in Hw. injection Hw as ->.
    destruct (IH (S idx) F1 F' (fun t0 d0 H0 => Hd t0 d0 (or_intror H0)) R1 Hrest) as [R2 V2]. split; [exact R2|]. intros v i j. rewrite V2, V1.
    destruct (lt_eq_lt_dec j idx) as [[Hlt| ->]|Hgt].
    + replace (j - idx) with 0 by lia. cbn [nth_error]. destruct (Nat.leb_spec idx j); [lia|]. destruct (Nat.eqb_spec j idx); [lia|]. destruct (nth_error ds (j - S idx)) as [[t' d']|]; [|reflexivity].
      destruct (Nat.leb_spec (S idx) j); [lia|reflexivity].
    + replace (idx - idx) with 0 by lia. cbn [nth_error]. destruct (Nat.leb_spec idx idx); [|lia]. rewrite Nat.eqb_refl. destruct (nth_error ds (idx - S idx)) as [[t' d']|]; [|reflexivity].
      destruct (Nat.leb_spec (S idx) idx); [lia|reflexivity].
    + destruct (Nat.eqb_spec j idx); [lia|]. replace (j - idx) with (S (j - S idx)) by lia. cbn [nth_error]. destruct (nth_error ds (j - S idx)) as [[t' d']|]; [|reflexivity].
      destruct (Nat.leb_spec (S idx) j); [|lia]. destruct (Nat.leb_spec idx j); [reflexivity|lia].
Qed.
Lemma dumps_exist : forall ds idx F, (forall t d, In (t, d) ds -> good_data d) -> ready F -> exists F', dumps_done parallel size spaces fields idx ds F F'.
Proof.
  intros ds. induction ds as [|[t d] ds IH]; intros idx F Hd HR; [exists F; constructor|].
  destruct (one_dump d idx t F _ (Hd t d (or_introl eq_refl)) HR (interleaved_concat _)) as (F1 & E & R1 & _).
  destruct (IH (S idx) F1 (fun t0 d0 H0 => Hd t0 d0 (or_intror H0)) R1) as (F' & H'). exists F'. econstructor; [|exact H']. eexists. split; [apply interleaved_concat|exact E].
Qed.
End Run.

(** ** The theorems *)
(** row of the k-th degree of freedom of rank r *)
Definition row (s : space) (r k : nat) : nat := before (layout s) r + k.
Record set_up (size : nat) (spaces : list space) (names : list string) (fields : list (string * string)) : Prop := {
  u_spaces : forall n s, registered spaces n = Some s -> good_space size s;
  u_ranks : 0 < size;
  u_fields : NoDup (map fst fields);
  u_names : forall f sn, In (f, sn) fields -> In sn names }.
Notation history := (list (V * (string -> parts))).
Definition good_history (spaces : list space) (fields : list (string * string)) (ds : history) : Prop := forall t d, In (t, d) ds -> good_data spaces fields d.

(** every degree of freedom has one row, and every row one degree of freedom *)
Theorem netcdf_rows : forall size s, good_space size s ->
  (forall r k r' k', k < nth r (layout s) 0 -> k' < nth r' (layout s) 0 -> row s r k = row s r' k' -> r = r' /\ k = k') /\
  (forall i, i < ndofs s <-> exists r k, r < size /\ k < nth r (layout s) 0 /\ row s r k = i).
Proof.
  intros size s Gs. destruct Gs as [Hs Hl _ _]. unfold row. rewrite ndofs_layout. unfold layout in *. destruct (s_coords s) as [|[c p] l]; [congruence|].
  assert (E : forall r, nth r (lens p) 0 = length (nth r p [])) by (intros r; unfold lens; change 0 with (length (@nil V)); apply map_nth).
  assert (Ep : length p = size) by (rewrite <- Hl; unfold lens; rewrite map_length; reflexivity). split.
  - intros r k r' k' H H'. rewrite E in H, H'. apply row_injective; assumption.
  - intros i. split.
    + intros Hi. destruct (row_onto p i Hi) as (r & k & H1 & H2 & H3). exists r, k. rewrite E. split; [lia|]. auto.
    + intros (r & k & _ & Hk & <-). rewrite E in Hk. pose proof (row_bound p r). lia.
Qed.

(** the values in the file, exactly *)
Lemma fresh_values parallel size spaces names fields ds F : set_up size spaces names fields -> good_history spaces fields ds ->
  fresh_run parallel size spaces names fields ds F -> ready spaces fields F /\
  forall v i j, value F v i j = match v with
    | VTime => if i =? 0 then option_map fst (nth_error ds j) else None
    | VCoord n c => created spaces names (VCoord n c) i j
    | VField f => match nth_error ds j, space_of spaces fields f with Some (_, d), Some _ => nth_error (concat (d f)) i | _, _ => None end
    end.
Proof.
  intros [U1 U2 U3 U4] Hd (F0 & (ws & Hi & Hw) & Hds). destruct (create_ok parallel size spaces fields U1 U2 U3 names ws Hi) as (F0' & E & R0 & V0). rewrite E in Hw. injection Hw as ->.
  destruct (dumps_values parallel size spaces fields U1 U2 U3 ds 0 F0 F Hd R0 Hds) as [R V1]. split; [exact R|]. intros v i j. rewrite V1, V0, Nat.sub_0_r. cbn [Nat.leb].
  destruct v as [|n c|f]; cbn [created after_dump].
  - destruct (nth_error ds j) as [[t d]|]; cbn; destruct (i =? 0); reflexivity.
  - destruct (nth_error ds j) as [[t d]|]; reflexivity.
  - destruct (nth_error ds j) as [[t d]|] eqn:En; [|reflexivity]. destruct (space_of spaces fields f) as [s|] eqn:Es; [|reflexivity].
    destruct (Nat.ltb_spec i (ndofs s)) as [|Hge]; [reflexivity|]. symmetry. apply nth_error_None. rewrite length_concat, (Hd _ _ (nth_error_In _ _ En) _ _ Es), <- ndofs_layout. exact Hge.
Qed.
Lemma part_row (p : parts) r k x : nth_error (nth r p []) k = Some x -> nth_error (concat p) (before (lens p) r + k) = Some x.
Proof. intros H. rewrite concat_row; [exact H|]. apply nth_error_Some. congruence. Qed.
Lemma created_coordinate size spaces names sn s c p r k y : good_space size s -> registered spaces sn = Some s -> In sn names -> In (c, p) (s_coords s) ->
  nth_error (nth r p []) k = Some y -> created spaces names (VCoord sn c) (row s r k) 0 = Some y.
Proof.
  intros Gs Er Hn Hc Hy. unfold created. cbn [Nat.eqb andb]. replace (existsb (String.eqb sn) names) with true by (symmetry; apply existsb_exists; exists sn; split; [exact Hn|apply String.eqb_refl]).
  unfold coordinate. rewrite Er, (find_named _ c p (g_names _ _ Gs) Hc). cbn [option_map snd]. unfold row. rewrite <- (g_lens _ _ Gs _ _ Hc). apply part_row. exact Hy.
Qed.

(** After any number of dumps, whatever the order in which the ranks have written: the times, the values of all output fields at these times, in
    the rows of their coordinates, and nothing more *)
Theorem netcdf_run_contents : forall parallel size spaces names fields ds, set_up size spaces names fields -> good_history spaces fields ds ->
  (exists F, fresh_run parallel size spaces names fields ds F) /\
  forall F, fresh_run parallel size spaces names fields ds F ->
    (forall j t d, nth_error ds j = Some (t, d) -> value F VTime 0 j = Some t /\
       forall f sn s, In (f, sn) fields -> registered spaces sn = Some s -> forall r k x, nth_error (nth r (d f) []) k = Some x ->
         value F (VField f) (row s r k) j = Some x /\
         forall c p y, In (c, p) (s_coords s) -> nth_error (nth r p []) k = Some y -> value F (VCoord sn c) (row s r k) 0 = Some y) /\
    (forall j, length ds <= j -> value F VTime 0 j = None /\ forall f i, value F (VField f) i j = None).
Proof.
  intros parallel size spaces names fields ds U Hd. split.
  - destruct U as [U1 U2 U3 U4]. destruct (create_ok parallel size spaces fields U1 U2 U3 names _ (interleaved_concat _)) as (F0 & E0 & R0 & _).
    destruct (dumps_exist parallel size spaces fields U1 U2 U3 ds 0 F0 Hd R0) as (F & H). exists F, F0. split; [|exact H]. eexists. split; [apply interleaved_concat|exact E0].
  - intros F HF. destruct (fresh_values _ _ _ _ _ _ _ U Hd HF) as [_ Hv]. split.
    + intros j t d Hj. split; [rewrite Hv, Hj; reflexivity|]. intros f sn s Hf Er r k x Hx. pose proof (space_of_in spaces fields (u_fields _ _ _ _ U) _ _ Hf) as Es. rewrite Er in Es. split.
      * rewrite Hv, Hj, Es. unfold row. rewrite <- (Hd _ _ (nth_error_In _ _ Hj) _ _ Es). apply part_row. exact Hx.
      * intros c p y Hc Hy. rewrite Hv. eapply created_coordinate; [apply (u_spaces _ _ _ _ U _ _ Er)|exact Er|eapply (u_names _ _ _ _ U); exact Hf|exact Hc|exact Hy].
    + intros j Hj. assert (E : nth_error ds j = None) by (apply nth_error_None; exact Hj). split; [rewrite Hv, E; reflexivity|]. intros f i. rewrite Hv, E. reflexivity.
Qed.

(** No order of the writes is an error *)
Theorem netcdf_any_order : forall parallel size spaces names fields ds, set_up size spaces names fields -> good_history spaces fields ds ->
  (forall ws, interleaved (map (fun r => writes_of (create_events parallel size r spaces names fields)) (seq 0 size)) ws -> is_ok (do_writes no_data ws)) /\
  forall F, fresh_run parallel size spaces names fields ds F -> forall t d ws, good_data spaces fields d ->
    interleaved (map (fun r => writes_of (dump_events parallel size r spaces fields d (length ds) t)) (seq 0 size)) ws -> is_ok (do_writes F ws).
Proof.
  intros parallel size spaces names fields ds U Hd. destruct U as [U1 U2 U3 U4] eqn:EU. split.
  - intros ws Hi. destruct (create_ok parallel size spaces fields U1 U2 U3 names ws Hi) as (F & E & _). exists F. exact E.
  - intros F HF t d ws Hg Hi. destruct (fresh_values _ _ _ _ _ _ _ U Hd HF) as [R _]. destruct (one_dump parallel size spaces fields U1 U2 U3 d (length ds) t F ws Hg R Hi) as (F' & E & _). exists F'. exact E.
Qed.

(** All ranks take part in the same communications in the same order *)
Lemma calls_app l1 l2 : calls_of (V := V) (l1 ++ l2) = calls_of l1 ++ calls_of l2.
Proof. apply flat_map_app. Qed.
Lemma calls_flat {B} (g h : B -> list (event V)) l : (forall b, calls_of (g b) = calls_of (h b)) -> calls_of (flat_map g l) = calls_of (flat_map h l).
Proof. intros H. induction l as [|b l IH]; [reflexivity|]. cbn [flat_map]. rewrite !calls_app, IH, H. reflexivity. Qed.
Lemma calls_when parallel r (w : wr) : calls_of (when_file parallel r [Write w]) = [].
Proof. unfold when_file. destruct (has_file parallel r); reflexivity. Qed.
Lemma calls_array parallel size r what s (p : parts) mk : calls_of (array_events parallel size r what s p mk) = if parallel then [what] else if size =? 1 then [] else [what].
Proof.
  unfold array_events. destruct parallel; [reflexivity|]. rewrite calls_app. assert (E : calls_of (V := V) (if r =? 0 then match gathered p r with Some l => [Write (mk 0 l)] | None => [] end else []) = [])
    by (destruct (r =? 0); [destruct (gathered p r)|]; reflexivity).
  rewrite E, app_nil_r. unfold gather_calls. destruct (size =? 1); reflexivity.
Qed.
Theorem netcdf_calls_match : forall parallel size r r' (spaces : list space) names fields data idx t,
  calls_of (create_events parallel size r spaces names fields) = calls_of (create_events parallel size r' spaces names fields) /\
  calls_of (dump_events parallel size r spaces fields data idx t) = calls_of (dump_events parallel size r' spaces fields data idx t).
Proof.
  intros. assert (O : forall l l' : list (event V), calls_of l = calls_of l' -> calls_of (open_close parallel l) = calls_of (open_close parallel l')).
  { intros l l' H. unfold open_close. destruct parallel; [|exact H]. rewrite !calls_app, H. reflexivity. }
  split; apply O; rewrite !calls_app, !calls_when.
  - f_equal. f_equal.
    + apply calls_flat. intros n. destruct (registered spaces n) as [s|]; [|reflexivity]. apply calls_flat. intros cp. rewrite !calls_app, !calls_when, !calls_array. reflexivity.
    + apply calls_flat. intros fs. destruct (registered spaces (snd fs)); [rewrite !calls_when|]; reflexivity.
  - f_equal. f_equal. apply calls_flat. intros fs. destruct (registered spaces (snd fs)); [rewrite !calls_array|]; reflexivity.
Qed.

(** The file does not depend on parallel netCDF, nor on the number of ranks as long as the global numbering is the same *)
Theorem netcdf_ranks_irrelevant : forall parallel parallel' size size' spaces spaces' names fields ds ds' F F',
  set_up size spaces names fields -> set_up size' spaces' names fields -> good_history spaces fields ds -> good_history spaces' fields ds' ->
  (forall n c, option_map (@concat V) (coordinate spaces n c) = option_map (@concat V) (coordinate spaces' n c)) ->
  (forall n, registered spaces n = None <-> registered spaces' n = None) ->
  Forall2 (fun a b => fst a = fst b /\ forall f, concat (snd a f) = concat (snd b f)) ds ds' ->
  fresh_run parallel size spaces names fields ds F -> fresh_run parallel' size' spaces' names fields ds' F' ->
  forall v i j, value F v i j = value F' v i j.
Proof.
  intros parallel parallel' size size' spaces spaces' names fields ds ds' F F' U U' Hd Hd' Hc Hr H2 HF HF' v i j.
  destruct (fresh_values _ _ _ _ _ _ _ U Hd HF) as [_ Hv]. destruct (fresh_values _ _ _ _ _ _ _ U' Hd' HF') as [_ Hv']. rewrite Hv, Hv'.
  assert (Hn : match nth_error ds j, nth_error ds' j with Some a, Some b => fst a = fst b /\ forall f, concat (snd a f) = concat (snd b f) | None, None => True | _, _ => False end).
  { clear -H2. revert j. induction H2 as [|a b l l' H _ IH]; intros j; [destruct j; exact I|]. destruct j as [|j]; [exact H|apply IH]. }
  destruct v as [|n c|f].
  - destruct (i =? 0); [|reflexivity]. destruct (nth_error ds j) as [[t d]|], (nth_error ds' j) as [[t' d']|]; try contradiction; [|reflexivity]. cbn in *. destruct Hn as [-> _]. reflexivity.
  - cbn [created]. destruct (_ && _); [|reflexivity]. specialize (Hc n c). destruct (coordinate spaces n c), (coordinate spaces' n c); cbn in Hc; try discriminate; [|reflexivity]. injection Hc as ->. reflexivity.
  - destruct (nth_error ds j) as [[t d]|], (nth_error ds' j) as [[t' d']|]; try contradiction; [|reflexivity]. cbn in Hn. destruct Hn as [_ Hn].
    unfold space_of. destruct (find _ fields) as [fs|]; [|reflexivity]. specialize (Hr (snd fs)). destruct (registered spaces (snd fs)) as [s|], (registered spaces' (snd fs)) as [s'|]; [rewrite Hn; reflexivity| | |reflexivity].
    + destruct Hr as [_ Hr]. specialize (Hr eq_refl). discriminate.
    + destruct Hr as [Hr _]. specialize (Hr eq_refl). discriminate.
Qed.

(** Picking up: if the mesh is numbered as before (in particular with the same ranks holding the same parts), the file goes on, earlier times are kept, and
    later values are in the rows of their coordinates *)
Theorem netcdf_pick_up : forall parallel size spaces names fields ds F parallel' size' spaces' ds' F',
  set_up size spaces names fields -> good_history spaces fields ds -> fresh_run parallel size spaces names fields ds F ->
  set_up size' spaces' names fields -> good_history spaces' fields ds' -> picked_up_run parallel' size' spaces' fields (length ds) ds' F F' ->
  (forall n, option_map ndofs (registered spaces n) = option_map ndofs (registered spaces' n)) ->
  (forall n c, option_map (@concat V) (coordinate spaces n c) = option_map (@concat V) (coordinate spaces' n c)) ->
  (forall v i j, j < length ds -> value F' v i j = value F v i j) /\
  forall j t d, nth_error ds' j = Some (t, d) -> value F' VTime 0 (length ds + j) = Some t /\
    forall f sn s, In (f, sn) fields -> registered spaces' sn = Some s -> forall r k x, nth_error (nth r (d f) []) k = Some x ->
      value F' (VField f) (row s r k) (length ds + j) = Some x /\
      (0 < length ds -> forall c p y, In (c, p) (s_coords s) -> nth_error (nth r p []) k = Some y -> value F' (VCoord sn c) (row s r k) 0 = Some y).
Proof.
  intros parallel size spaces names fields ds F parallel' size' spaces' ds' F' U Hd HF U' Hd' HP Hn Hc.
  destruct (fresh_values _ _ _ _ _ _ _ U Hd HF) as [(R1 & R2 & R3) Hv].
  assert (Es : forall f, option_map ndofs (space_of spaces fields f) = option_map ndofs (space_of spaces' fields f)) by (intros f; unfold space_of; destruct (find _ fields) as [fs|]; [apply Hn|reflexivity]).
  assert (R : ready spaces' fields F).
  { split; [|split; [exact R2|]].
    - intros v n a H. rewrite (R1 v n a H). destruct v as [|m c|f]; [reflexivity| |]; cbn.
      + specialize (Hn m). destruct (registered spaces m), (registered spaces' m); cbn in Hn; try discriminate; [injection Hn as ->|]; reflexivity.
      + specialize (Es f). destruct (space_of spaces fields f), (space_of spaces' fields f); cbn in Es; try discriminate; [injection Es as ->|]; reflexivity.
    - intros f s Hs. specialize (Es f). rewrite Hs in Es. destruct (space_of spaces fields f) as [s'|] eqn:E; [|discriminate]. eapply R3. exact E. }
  destruct U' as [U1 U2 U3 U4] eqn:EU. destruct (dumps_values parallel' size' spaces' fields U1 U2 U3 ds' (length ds) F F' Hd' R HP) as [_ Hv'].
  assert (Hold : forall v i j, j < length ds -> value F' v i j = value F v i j).
  { intros v i j Hj. rewrite Hv'. replace (j - length ds) with 0 by lia. destruct (nth_error ds' 0) as [[t d]|]; [|reflexivity]. destruct (Nat.leb_spec (length ds) j); [lia|reflexivity]. }
  split; [exact Hold|]. intros j t d Hj.
  assert (Hnew : forall v i, value F' v i (length ds + j) = after_dump spaces' fields t d v i (value F v i (length ds + j))).
  { intros v i. rewrite Hv'. replace (length ds + j - length ds) with j by lia. rewrite Hj. destruct (Nat.leb_spec (length ds) (length ds + j)); [reflexivity|lia]. }
  split; [rewrite Hnew; reflexivity|]. intros f sn s Hf Er r k x Hx. pose proof (space_of_in spaces' fields U3 _ _ Hf) as E. rewrite Er in E.
  pose proof (Hd' _ _ (nth_error_In _ _ Hj) _ _ E) as El. split.
  - rewrite Hnew. cbn [after_dump]. rewrite E. assert (Hx' : nth_error (concat (d f)) (row s r k) = Some x) by (unfold row; rewrite <- El; apply part_row; exact Hx).
    rewrite Hx'. assert (row s r k < length (concat (d f))) by (apply nth_error_Some; congruence). rewrite length_concat, El, <- ndofs_layout in H. destruct (Nat.ltb_spec (row s r k) (ndofs s)); [reflexivity|lia].
  - intros Hpos c p y Hcp Hy. rewrite Hold by exact Hpos. rewrite Hv.
    pose proof (created_coordinate size' spaces' names sn s c p r k y (U1 _ _ Er) Er (U4 _ _ Hf) Hcp Hy) as H. unfold created in *. destruct (_ && _); [|discriminate].
    specialize (Hc sn c). destruct (coordinate spaces sn c) as [q|], (coordinate spaces' sn c) as [q'|]; cbn in Hc; try discriminate. injection Hc as ->. exact H.
Qed.
(** A field whose space has vector values is never in the file (register_space refuses it), and one with scalar values is *)
Theorem netcdf_scalar_fields_only : forall parallel size spaces names fields ds F, set_up size spaces names fields -> good_history spaces fields ds ->
  fresh_run parallel size spaces names fields ds F -> NoDup (map s_name spaces) -> forall f s, In (f, s_name s) fields -> In s spaces ->
  (s_scalar s = false -> forall i j, value F (VField f) i j = None) /\
  (s_scalar s = true -> forall j t d, nth_error ds j = Some (t, d) -> forall r k x, nth_error (nth r (d f) []) k = Some x -> value F (VField f) (row s r k) j = Some x).
Proof.
  intros parallel size spaces names fields ds F U Hd HF HN f s Hf Hs. split.
  - intros E i j. destruct (fresh_values _ _ _ _ _ _ _ U Hd HF) as [_ Hv]. rewrite Hv. pose proof (space_of_in spaces fields (u_fields _ _ _ _ U) _ _ Hf) as Es.
    assert (Er : registered spaces (s_name s) = None).
    { destruct (registered spaces (s_name s)) as [s'|] eqn:Er; [|reflexivity]. unfold registered in Er. apply find_some in Er. destruct Er as [Hi' Hb]. apply andb_true_iff in Hb. destruct Hb as [Hn Hsc]. apply String.eqb_eq in Hn.
      replace s' with s in Hsc; [congruence|]. clear - HN Hs Hi' Hn. induction spaces as [|a l IH]; [destruct Hs|]. cbn in HN. apply NoDup_cons_iff in HN. destruct HN as [Ha Hl].
      destruct Hs as [->|Hs], Hi' as [->|Hi']; [reflexivity| | |apply IH; assumption].
      - exfalso. apply Ha. rewrite <- Hn. apply in_map. exact Hi'.
      - exfalso. apply Ha. rewrite Hn. apply in_map. exact Hs. }
    rewrite Er in Es. rewrite Es. destruct (nth_error ds j) as [[]|]; reflexivity.
  - intros E j t d Hj r k x Hx. assert (Er : registered spaces (s_name s) = Some s).
    { unfold registered. clear - HN Hs E. induction spaces as [|a l IH]; [destruct Hs|]. cbn in HN. apply NoDup_cons_iff in HN. destruct HN as [Ha Hl]. cbn [find].
      destruct Hs as [->|Hs]; [rewrite String.eqb_refl, E; reflexivity|]. destruct (String.eqb_spec (s_name a) (s_name s)) as [En|_]; [|cbn; apply IH; assumption].
      exfalso. apply Ha. rewrite En. apply in_map. exact Hs. }
    destruct (netcdf_run_contents parallel size spaces names fields ds U Hd) as [_ H]. destruct (H F HF) as [H1 _]. destruct (H1 j t d Hj) as [_ H2]. destruct (H2 f (s_name s) s Hf Er r k x Hx) as [H3 _]. exact H3.
Qed.
End Props.

Open Scope string_scope.
Open Scope list_scope.
Open Scope nat_scope.
(** ** Example: two ranks, a scalar space with three degrees of freedom and a vector-valued one *)
Definition dg (p : list (list nat)) : space nat := {| s_name := "DG"; s_scalar := true; s_coords := [("x", p)] |}.
Definition hdiv : space nat := {| s_name := "HDiv"; s_scalar := false; s_coords := [] |}.
Definition out_fields : list (string * string) := [("q", "DG"); ("u", "HDiv"); ("r", "DG")].
Lemma dg_set_up p size : length p = size -> 0 < size -> set_up size [hdiv; dg p] ["DG"; "HDiv"] out_fields.
Proof.
  intros Hp Hs. constructor; [|exact Hs|repeat constructor; cbn; intuition congruence|].
  - intros n s H. unfold registered in H. cbn [find s_name s_scalar hdiv dg] in H. rewrite andb_false_r, andb_true_r in H. destruct (String.eqb_spec "DG" n) as [<-|]; [|discriminate]. injection H as <-.
    constructor; cbn; [discriminate|unfold layout, lens; cbn; rewrite map_length; exact Hp| |repeat constructor; intros []]. intros c q [E|[]]. injection E as <- <-. reflexivity.
  - intros f sn [E|[E|[E|[]]]]; injection E as <- <-; cbn; auto.
Qed.
Example netcdf_example : set_up 2 [hdiv; dg [[10; 30]; [20]]] ["DG"; "HDiv"] out_fields /\
  good_history [hdiv; dg [[10; 30]; [20]]] out_fields [(0, fun _ => [[1; 2]; [3]]); (5, fun f => if String.eqb f "r" then [[4; 5]; [6]] else [[7; 8]; [9]])] /\
  row (dg [[10; 30]; [20]]) 1 0 = 2.
Proof.
  split; [apply dg_set_up; [reflexivity|lia]|]. split; [|reflexivity].
  assert (Hf : forall f s, space_of [hdiv; dg [[10; 30]; [20]]] out_fields f = Some s -> s = dg [[10; 30]; [20]]).
  { intros f s Hs. unfold space_of in Hs. destruct (find _ out_fields) as [fs|]; [|discriminate]. unfold registered in Hs. cbn [find s_name s_scalar hdiv dg] in Hs.
    rewrite andb_false_r, andb_true_r in Hs. destruct (String.eqb "DG" (snd fs)); [|discriminate]. injection Hs as <-. reflexivity. }
  intros t d [E|[E|[]]]; injection E as <- <-; intros f s Hs; rewrite (Hf f s Hs); [reflexivity|]. destruct (String.eqb f "r"); reflexivity.
Qed.
(** Refuted without the same numbering: the field q is everywhere equal to the coordinate x in both runs, but the mesh of the second run (read from the
    checkpoint, and here on two ranks) is numbered in another way: the file then has the value 20 in the row of x = 10 *)
Theorem netcdf_pick_up_numbering_refuted : exists F F' : ncfile nat,
  fresh_run false 1 [hdiv; dg [[10; 20]]] ["DG"; "HDiv"] [("q", "DG")] [(0, fun _ => [[10; 20]])] F /\
  picked_up_run false 2 [hdiv; dg [[20]; [10]]] [("q", "DG")] 1 [(5, fun _ => [[20]; [10]])] F F' /\
  value F' (VCoord "DG" "x") 0 0 = Some 10 /\ value F' (VField "q") 0 1 = Some 20.
Proof.
  eexists. eexists. split; [|split].
  - eexists. split; [eexists; split; [apply interleaved_concat|reflexivity]|]. econstructor; [|constructor]. eexists. split; [apply interleaved_concat|reflexivity].
  - econstructor; [|constructor]. eexists. split; [apply interleaved_concat|reflexivity].
  - split; reflexivity.
Qed.
