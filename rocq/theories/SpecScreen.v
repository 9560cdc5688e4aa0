(** What a page of the web client should show. *)
From Coq Require Import ZArith.
From Verif Require Import Api Render SpecRender SpecExport View Screen.
From Verif Require Import Base Regex Name SpecName Artifact Lint Web.

(** Thousandths as a percentage with one decimal. *)
Definition tenths (v : Z) (x : str) : Prop :=
  exists d e, SpecExport.decimal (Z.to_nat v / 10) d /\ SpecExport.decimal (Z.to_nat v mod 10) e /\ x = d ++ s "." ++ e.

(** The colors of the two ratios, in thousandths: red, orange, blue and olive. *)
Definition spc_hue (v : Z) (c : str) : Prop :=
  ((v < 400 /\ c = s "#FF4136") \/ (400 <= v < 700 /\ c = s "#FF851B") \/ (700 <= v < 1000 /\ c = s "#0074D9") \/ (1000 <= v /\ c = s "#3DA03D"))%Z.
Definition tst_hue (v : Z) (c : str) : Prop :=
  ((v < 500 /\ c = s "#FF4136") \/ (500 <= v < 1000 /\ c = s "#FF851B") \/ (1000 <= v /\ c = s "#3DA03D"))%Z.

Section Shows.
  Context {M : num} {H : Type}.
  Variable reported : F M -> Z.
  Variable path_str : path -> str.
  Variable p : project M H.
  Notation artifact := (artifact M H).

  (** The page of the artifact, but for its text. *)
  Record page_shows (a : artifact) (x : art_page) : Prop := {
    ps_name : ap_name x = n_raw (a_name a);
    ps_file : ap_file x = path_str (a_file a);
    ps_graph : family_dot reported p a (ap_graph x);
    ps_spc : tenths (reported (fst (a_completed a))) (fst (ap_spc x));
    ps_tst : tenths (reported (snd (a_completed a))) (fst (ap_tst x));
    ps_spc_hue : spc_hue (reported (fst (a_completed a))) (snd (ap_spc x));
    ps_tst_hue : tst_hue (reported (snd (a_completed a))) (snd (ap_tst x));
    ps_done : forall d, a_impl a = IDone d -> ap_impl x = Some (s "Defined as done:", d);
    ps_code : forall c loc, a_impl a = ICode c -> ic_primary c = Some loc -> exists t, place (path_str (loc_file loc)) (loc_line loc) t /\ ap_impl x = Some (s "Implemented:", t);
    ps_not : (forall d, a_impl a <> IDone d) -> (forall c loc, a_impl a = ICode c -> ic_primary c <> Some loc) -> ap_impl x = None }.

  (** A text that cannot be shown. *)
  Definition unshowable (strfmt : str -> str -> str -> option str) (base : str) (url : option str) (parent t : str) : Prop :=
    exists ks k, cut true t ks /\ In k ks /\ broken path_str strfmt p base (mkMs url FamilyDot DotIgnore []) parent k.
End Shows.
