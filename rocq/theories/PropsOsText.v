(** C93: environment variables that are not Unicode. *)
From Coq Require Import Ascii String NArith ZArith Bool Lia.
From Coq Require Import List.
From Verif Require Import Res BMap Str Profile Tag Num Value Metadata Err Coalesce Parse Figment Env OsText SpecText SpecOsText StrProofs OsTextProofs.
From Verif Require Import  Res BMap Str Profile Tag Num Value Env SpecLookup SpecEnv SpecText TextProofs PropsText.
Import ListNotations.
Local Open Scope N_scope.

(** The text of a variable is what the Unicode Standard says: characters where there are some, and
    U+FFFD for each longest piece that is not one. *)
Theorem C93_text : forall bs s, to_string_lossy bs = s <-> decoded bs s.
Proof. exact lossy_decoded. Qed.
Print Assumptions C93_text.

(** An overlong slash, a surrogate, and a euro sign that is cut short before a letter. *)
Example C93_text_ex :
  to_string_lossy [47; 192; 175; 237; 160; 128; 226; 130; 65; 226; 130; 172] =
    [47; 65533; 65533; 65533; 65533; 65533; 65533; 65; 8364] /\
  decoded [226; 130; 65] [65533; 65] /\ incomplete [226; 130] /\ ~ incomplete [237; 160].
Proof.
  split; [reflexivity|]. split; [apply C93_text; reflexivity|]. split.
  - exists 8364, [172]. split; [left; lia|]. split; [reflexivity|discriminate].
  - intros H. apply incomplete2 in H. destruct H as [_ H]. discriminate.
Qed.

(** Of variables that are text in UTF-8, exactly the text is used, whatever the provider is made of. *)
Theorem C93_valid : forall (vars : environ) e name,
  Forall (fun kv => Forall character (fst kv) /\ Forall character (snd kv)) vars ->
  let bytes := map (fun kv => (utf8 (fst kv), utf8 (snd kv))) vars in
  os_env_iter e bytes = env_iter e vars /\ os_env_data e bytes = env_data e vars /\
  os_env_var name bytes = env_var name vars /\ os_from_env name bytes = profile_from_env vars name.
Proof.
  intros vars e name F bytes.
  assert (S : os_seen bytes = vars).
  { unfold bytes, os_seen. rewrite map_map. cbn [fst snd]. induction F as [|[k v] r [K V] _ IH]; [reflexivity|].
    cbn [map fst snd] in *. now rewrite IH, (lossy_valid k K), (lossy_valid v V). }
  assert (I : os_env_iter e bytes = env_iter e vars) by (unfold os_env_iter; rewrite filter_seen, S; reflexivity).
  split; [exact I|]. split; [unfold os_env_data, env_data; now rewrite I|].
  unfold os_env_var, os_from_env. now rewrite S.
Qed.
Print Assumptions C93_valid.

Example C93_valid_ex :
  let vars := [(lit "APP_NAME", [228; 8364; 128512])] in
  Forall (fun kv => Forall character (fst kv) /\ Forall character (snd kv)) vars /\
  os_env_iter (env_prefixed (lit "APP_")) [(lit "APP_NAME", [195; 164; 226; 130; 172; 240; 159; 152; 128])] =
    Ret [(lit "name", [228; 8364; 128512])].
Proof.
  split; [|reflexivity]. constructor; [|constructor]. split; cbn [fst snd];
  repeat (constructor; [(left; reflexivity) || (right; split; reflexivity)|]); constructor.
Qed.

(** The text is always text, and where it shows no U+FFFD, the variable was exactly its UTF-8: two
    variables with one text either are one, or the text shows the mark. *)
Theorem C93_marked : forall a b,
  Forall character (to_string_lossy a) /\
  (to_string_lossy a = to_string_lossy b -> a = b \/ In 65533 (to_string_lossy a)) /\
  (to_string_lossy a = [] <-> a = []).
Proof.
  intros a b. split; [apply lossy_chars|]. split; [|apply lossy_nil].
  intros E. destruct (in_dec N.eq_dec 65533 (to_string_lossy a)) as [I|NI]; [now right|left].
  assert (A := lossy_faithful a NI). rewrite E in NI. assert (B := lossy_faithful b NI). congruence.
Qed.
Print Assumptions C93_marked.

Example C93_marked_ex :
  to_string_lossy [65; 255] = to_string_lossy [65; 254] /\ In 65533 (to_string_lossy [65; 255]) /\
  ~ In 65533 (to_string_lossy [65; 195; 164]).
Proof. repeat split; cbn; intuition discriminate. Qed.

(** What is not text neither makes nor takes away a dot, an underscore or any other ASCII character,
    and the segments between them do not depend on each other. *)
Theorem C93_segments : forall x bs segs,
  x < 128 ->
  (In x (to_string_lossy bs) <-> In x bs) /\
  to_string_lossy (join [x] segs) = join [x] (map to_string_lossy segs).
Proof. intros x bs segs X. split; [now apply lossy_ascii_in|now apply lossy_join]. Qed.
Print Assumptions C93_segments.

(** A character cut short by an underscore does not take the underscore with it, and the two
    segments make a key and a key in it. *)
Example C93_segments_ex :
  join [95] [lit "APP" ; lit "x" ++ [226; 130]; lit "y"] = lit "APP_x" ++ [226; 130; 95] ++ lit "y" /\
  os_env_iter (env_split (env_prefixed (lit "APP_")) (lit "_")) [(lit "APP_x" ++ [226; 130; 95] ++ lit "y", lit "1")] =
    Ret [(lit "x" ++ [65533] ++ lit ".y", lit "1")].
Proof. split; reflexivity. Qed.

Lemma cut_join x l : l <> [] -> Forall (fun g => ~ In x g) l -> cut [x] (join [x] l) l.
Proof.
  intros N F. induction F as [|a l H F IH]; [now destruct N|]. destruct l as [|b l].
  - apply cut_end. intros u [w E]. apply H. cbn [join] in E. rewrite E. apply in_or_app. right. now left.
  - change (join [x] (a :: b :: l)) with (a ++ [x] ++ join [x] (b :: l)). apply cut_at; [|apply IH; discriminate].
    intros u [w E]. destruct (Nat.le_gt_cases (length a) (length u)) as [L|L]; [exact L|]. exfalso. apply H.
    assert (U : nth_error a (length u) = Some x).
    { rewrite <- (nth_error_app1 a ([x] ++ join [x] (b :: l)) L), E, nth_error_app2 by lia. now rewrite Nat.sub_diag. }
    exact (nth_error_In _ _ U).
Qed.

(** The keys of variables that are not text: after the prefix the name is divided at the separator's
    bytes, and each segment is taken for text by itself. *)
Theorem C93_keys : forall prefix p x segs lsegs v,
  x < 128 -> Forall (fun c => c < 128) p -> alike p prefix ->
  segs <> [] -> ~ In [] segs -> Forall (fun g => ~ In x g /\ ~ In dot g) segs ->
  Forall (fun c => ~ In c white_space) (p ++ to_string_lossy (join [x] segs)) ->
  Forall2 lowered (map to_string_lossy segs) lsegs ->
  os_env_iter (build_env (FromPrefix prefix) [OpSplit [x]]) [(p ++ join [x] segs, v)] =
    Ret [(join [dot] lsegs, to_string_lossy v)].
Proof.
  intros prefix p x segs lsegs v X P A N NE F W L. unfold os_env_iter. rewrite filter_seen. unfold os_seen. cbn [map fst snd].
  assert (U : utf8 p = p).
  { clear - P. induction P as [|c p H P IH]; [reflexivity|]. unfold utf8 in *. cbn [flat_map]. rewrite IH. unfold utf8_of.
    now apply N.ltb_lt in H as ->. }
  assert (E : to_string_lossy (p ++ join [x] segs) = p ++ to_string_lossy (join [x] segs)).
  { rewrite <- U at 1. apply lossy_text. eapply Forall_impl; [|exact P]. intros c H. left. cbn beta in H. lia. }
  rewrite E. rewrite lossy_join in * by exact X.
  assert (FX : Forall (fun g => ~ In x g) (map to_string_lossy segs)).
  { rewrite Forall_map. eapply Forall_impl; [|exact F]. intros g [H _] I. apply H. refine (proj1 (lossy_ascii_in g _ _) I); first [exact X|reflexivity]. }
  assert (FD : Forall (fun g => ~ In dot g) (map to_string_lossy segs)).
  { rewrite Forall_map. eapply Forall_impl; [|exact F]. intros g [_ H] I. apply H. refine (proj1 (lossy_ascii_in g _ _) I); first [exact X|reflexivity]. }
  destruct (C74_split prefix [x] [] p (join [x] (map to_string_lossy segs)) [] (map to_string_lossy segs) lsegs (to_string_lossy v))
    as [K _]; try assumption; try discriminate; try constructor.
  - apply cut_join; [destruct segs; [now destruct N|discriminate]|exact FX].
  - rewrite app_nil_r in K. apply K. intros I. apply in_map_iff in I. destruct I as (g & G & I). apply (proj1 (lossy_nil g)) in G. subst. contradiction.
Qed.
Print Assumptions C93_keys.

(** A latin-1 name: [APP_B<F6>se__Gr<F6><DF>e]. *)
Example C93_keys_ex :
  let segs := [lit "B" ++ [246] ++ lit "se"; lit "Gr" ++ [246; 223] ++ lit "e"] in
  os_env_iter (build_env (FromPrefix (lit "APP_")) [OpSplit (lit "_")]) [(lit "app_" ++ join (lit "_") segs, [49; 255])] =
    Ret [(lit "b" ++ [65533] ++ lit "se.gr" ++ [65533; 65533] ++ lit "e", [49; 65533])] /\
  Forall2 lowered (map to_string_lossy segs) [lit "b" ++ [65533] ++ lit "se"; lit "gr" ++ [65533; 65533] ++ lit "e"].
Proof.
  intros segs. split; [reflexivity|].
  apply Forall2_cons; [apply lowered_lower; reflexivity|]. apply Forall2_cons; [apply lowered_lower; reflexivity|]. apply Forall2_nil.
Qed.

(** Different variables do not always have different keys: two names with different bytes make one
    key, and only the value of the last is kept. *)
Theorem C93_collide_refuted :
  ~ (forall a b, a <> b -> to_string_lossy a <> to_string_lossy b) /\
  exists a b, a <> b /\
    os_env_data env_raw [(a, lit "1"); (b, lit "2")] =
    Ret [(p_default, [(lit "f" ++ [65533], VNum tag_default (NInt USize 2))])].
Proof.
  split.
  - intros H. apply (H [70; 255] [70; 254]); [discriminate|reflexivity].
  - exists [70; 255], [70; 254]. split; [discriminate|]. reflexivity.
Qed.
Print Assumptions C93_collide_refuted.
