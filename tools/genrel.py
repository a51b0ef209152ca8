"""Generates Properties/TwoRunsBlas.v (C15, C16), Properties/Safety.v (C02), Properties/NoBeta.v (C03)."""
import re
UP2='u = Upper \\/ u = Lower'; UP3='u = Upper \\/ u = Lower \\/ u = General'
# name, binders, dims, call, options, [(view, shape, positions)] inputs, (out, shape, positions)
SQ='match sd with Left => shape %s m m | Right => shape %s n n end'
OPK='(match o with NoTrans => shape %s n k | _ => shape %s k n end)'
def sq(v): return SQ%(v,v)
def opk(v): return OPK%(v,v)
R=[
('gemm','ta tb alpha beta','m n k','gemm ta tb alpha A B beta C','ta <> Conj /\\ tb <> Conj',[('A',lambda v:f'opshape ta {v} m k','anywhere'),('B',lambda v:f'opshape tb {v} k n','anywhere')],('C',lambda v:f'shape {v} m n','anywhere')),
('gemv','o alpha beta','m n','gemv o alpha A x beta y','True',[('A',lambda v:f'opshape o {v} m n','anywhere'),('x',lambda v:f'isvec {v} n','anywhere')],('y',lambda v:f'isvec {v} m','anywhere')),
('ger','alpha','m n','ger alpha x y A','True',[('x',lambda v:f'isvec {v} m','anywhere'),('y',lambda v:f'isvec {v} n','anywhere')],('A',lambda v:f'shape {v} m n','anywhere')),
('geru','alpha','m n','geru alpha x y A','True',[('x',lambda v:f'isvec {v} m','anywhere'),('y',lambda v:f'isvec {v} n','anywhere')],('A',lambda v:f'shape {v} m n','anywhere')),
('her','u alpha','n','her u alpha x A',UP2,[('x',lambda v:f'isvec {v} n','anywhere')],('A',lambda v:f'shape {v} n n','(in_triangle u)')),
('syr','u alpha','n','syr u alpha x A',UP2,[('x',lambda v:f'isvec {v} n','anywhere')],('A',lambda v:f'shape {v} n n','(in_triangle u)')),
('her2','u alpha','n','her2 u alpha x y A',UP2,[('x',lambda v:f'isvec {v} n','anywhere'),('y',lambda v:f'isvec {v} n','anywhere')],('A',lambda v:f'shape {v} n n','(in_triangle u)')),
('syr2','u alpha','n','syr2 u alpha x y A',UP2,[('x',lambda v:f'isvec {v} n','anywhere'),('y',lambda v:f'isvec {v} n','anywhere')],('A',lambda v:f'shape {v} n n','(in_triangle u)')),
('hemv','u alpha beta','n','hemv u alpha A x beta y',UP2,[('A',lambda v:f'shape {v} n n','(in_triangle u)'),('x',lambda v:f'isvec {v} n','anywhere')],('y',lambda v:f'isvec {v} n','anywhere')),
('symv','u alpha beta','n','symv u alpha A x beta y',UP2,[('A',lambda v:f'shape {v} n n','(in_triangle u)'),('x',lambda v:f'isvec {v} n','anywhere')],('y',lambda v:f'isvec {v} n','anywhere')),
('trmv','u o d','n','trmv u o d A x',UP2,[('A',lambda v:f'shape {v} n n','(referenced u d)')],('x',lambda v:f'isvec {v} n','anywhere')),
('trsv','u o d','n','trsv u o d A x',UP2,[('A',lambda v:f'shape {v} n n','(referenced u d)')],('x',lambda v:f'isvec {v} n','anywhere')),
('trsm','sd u o d alpha','m n','trsm sd u o d alpha A B','('+UP2+') /\\ o <> Conj',[('A',sq,'(referenced u d)')],('B',lambda v:f'shape {v} m n','anywhere')),
('trmm','sd u o d alpha','m n','trmm sd u o d alpha A B','('+UP2+') /\\ o <> Conj',[('A',sq,'(referenced u d)')],('B',lambda v:f'shape {v} m n','anywhere')),
('hemm','sd u alpha beta','m n','hemm sd u alpha A B beta C',UP3,[('A',sq,'(stored_half u)'),('B',lambda v:f'shape {v} m n','anywhere')],('C',lambda v:f'shape {v} m n','anywhere')),
('symm','sd u alpha beta','m n','symm sd u alpha A B beta C',UP3,[('A',sq,'(stored_half u)'),('B',lambda v:f'shape {v} m n','anywhere')],('C',lambda v:f'shape {v} m n','anywhere')),
('herk','u o alpha beta','n k','herk u o alpha A beta C','('+UP3+') /\\ (o = NoTrans \\/ o = ConjTrans)',[('A',opk,'anywhere')],('C',lambda v:f'shape {v} n n','(in_triangle u)')),
('syrk','u o alpha beta','n k','syrk u o alpha A beta C','('+UP3+') /\\ (o = NoTrans \\/ o = Trans)',[('A',opk,'anywhere')],('C',lambda v:f'shape {v} n n','(in_triangle u)')),
('her2k','u o alpha beta','n k','her2k u o alpha A B beta C','('+UP3+') /\\ (o = NoTrans \\/ o = ConjTrans)',[('A',opk,'anywhere'),('B',opk,'anywhere')],('C',lambda v:f'shape {v} n n','(in_triangle u)')),
('syr2k','u o alpha beta','n k','syr2k u o alpha A B beta C','('+UP3+') /\\ (o = NoTrans \\/ o = Trans)',[('A',opk,'anywhere'),('B',opk,'anywhere')],('C',lambda v:f'shape {v} n n','(in_triangle u)')),
]
def wd(nm,dims):
    return '' if nm in ('ger','geru','her','syr','her2','syr2') else ' with '+' '.join(f'({d} := {d})' for d in dims.split())
def sub(call,vs,suf):
    t=call.split(' ')
    return ' '.join(w+suf if w in vs else w for w in t)
HEAD='''From Coq Require Import Bool Arith ZArith Lia List.
From Verif.Core Require Import Scalar Prog View Rel Instances.
From Verif.Spec Require Import LinAlg Outcome.
From Verif.Model Require Import Gemm Blas1 Blas2 Blas3.
From Verif.Proof Require Import RelTac BlasRel HRel NoBetaProof TwoRuns.
From Verif.Properties Require Import ExTac Blas2.
Import ListNotations.

'''
TAC='''Ltac vdest := unfold opshape, shape, isvec in *;
  repeat match goal with H : _ /\\ _ |- _ => destruct H end.
(** enumerate the option arguments that occur *)
Ltac opts :=
  repeat match goal with
  | H : ?u = Upper \\/ _ |- _ => destruct H as [->|H]
  | H : ?u = Lower \\/ _ |- _ => destruct H as [->|H]
  | H : ?o = NoTrans \\/ _ |- _ => destruct H as [->|H]
  | H : ?u = General |- _ => rewrite H in *; clear H
  | H : ?u = Lower |- _ => rewrite H in *; clear H
  | H : ?u = Trans |- _ => rewrite H in *; clear H
  | H : ?u = ConjTrans |- _ => rewrite H in *; clear H
  end.
Ltac sdo := match goal with
  | sd : side_t |- _ => destruct sd
  | o : op_t |- _ => destruct o; try congruence
  end.
Ltac fin := cbn [is_nt op_eqb notransb sel]; try eassumption; try reflexivity; try congruence;
  try (split; congruence); auto.
'''
two='(** * C15 and C16: results depend only on the referenced elements of the arguments, not on how they are\n    laid out in memory or on anything else in memory.  Any scalar arithmetic (no law is assumed). *)\n'+HEAD+'''
'''+TAC+'''
Section S.
Context {E : Env}.
Implicit Types (A B C x y : view) (s : state).
Lemma tri_vtri u i j : in_triangle u i j = vtri u i j. Proof. reflexivity. Qed.
Ltac ins3 l := first [ apply agrees_nil | apply agrees_cons; [eassumption|ins3 l] ].
Ltac ap3 := first [ apply apart_nil | apply apart_cons; [eassumption|eassumption|ap3] ].
'''
safe='(** * C02: argument checks.  Any scalar arithmetic; no assumption about overlap between arguments. *)\n'+HEAD+TAC+'''
Section S.
Context {E : Env}.
Implicit Types (A B C x y : view) (s : state).
'''
nb='(** * C03: overloads without beta do not depend on the old contents of the output.  Any scalar arithmetic. *)\n'+HEAD+TAC+'''
Section S.
Context {E : Env}.
Implicit Types (A B C x y : view) (s : state).
Ltac ins3 l := first [ apply agrees_nil | apply agrees_cons; [eassumption|ins3 l] ].
'''
RRT={
'opts':''}
for (nm,b,dims,call,opt,ins,out) in R:
    vs=[v for v,_,_ in ins]+[out[0]]
    c1,c2=sub(call,vs,'1'),sub(call,vs,'2')
    views=' '.join(v+'1 '+v+'2' for v in vs)
    o=out[0]
    bt=(b.replace('beta','(beta : coef)') )
    opth='' if opt=='True' else f'{opt} ->\n  '
    shp=' -> '.join(f'({f(v+"1")})' if f(v).startswith('match') else f(v+'1') for v,f,_ in ins+[out])
    ag=' -> '.join(f'agree {p} {v}1 s1 {v}2 s2' for v,_,p in ins+[out])
    dj=' -> '.join(f'disj {v}1 {o}1 -> disj {v}2 {o}2' for v,_,_ in ins)
    vis={'anywhere':'everywhere','(in_triangle u)':'(vtri u)','(referenced u d)':'(vtrid u d)','(stored_half u)':'(vtriU u)'}
    inl='; '.join(f'({v}1, {v}2, {p.strip("()")} : nat -> nat -> Prop)' for v,_,p in ins)
    inn=' '.join(f'assert (R{v} : reads R {v}1 {v}2 {vis[p]}) by (apply HR; cbn; auto).' for v,_,p in ins)
    two+=f'''
Theorem {nm}_two_runs {bt} {views} s1 s2 {dims} : {opth}{shp} ->
  vinj {o}1 -> vinj {o}2 -> {dj} ->
  {ag} ->
  both_return ({c1}) ({c2}) s1 s2 (fun _ s1' s2' =>
    agree {out[2]} {o}1 s1' {o}2 s2' /\\ only_changes (inview {o}1) s1 s1' /\\ only_changes (inview {o}2) s2 s2').
Proof.
  intros. eapply (two_runs _ [{inl}]); [ins3 tt|eassumption|ap3|assumption|assumption|].
  intros R HR RC WC. {inn}
  vdest. clear HR. opts.
  all: repeat sdo; vdest; eapply {nm}_rr{wd(nm,dims)}; fin.
Qed.
'''
    # safety
    shp0=' -> '.join(f'({f(v)})' if f(v).startswith('match') else f(v) for v,f,_ in ins+[out])
    v0=' '.join(vs)
    safe+=f'''
Theorem {nm}_safe {bt} {v0} s {dims} : {opth}{shp0} ->
  returns ({call}) s (fun _ s' => only_changes (cells {o} {out[2]}) s s').
Proof.
  intros. apply safe_run. intros R HR WC.
  {' '.join(f'pose proof (HR {v} {vis[p]}) as R{v}.' for v,_,p in ins+[out])}
  clear HR. vdest. opts.
  all: repeat sdo; vdest; eapply {nm}_rr{wd(nm,dims)}; fin.
Qed.
'''
    conj=' /\\ '.join(([] if opt=='True' else [f'({opt})'])+['exists '+dims+', '+' /\\ '.join(f'({f(v)})' if f(v).startswith('match') else f(v) for v,f,_ in ins+[out])])
    vecs=''.join(f'nc {v} = 1 -> ' for v in vs if v in 'xy')
    safe+=f'''Theorem {nm}_rejects {bt} {v0} s : check_input = true -> {vecs}
  ~ ({conj}) -> rejects ({call}) s.
Proof. rejs. Qed.
'''
    if 'beta' in b:
        c1n=c1.replace(nm+' ',nm+'_nobeta ',1).replace(' beta','') ; c2n=c2.replace(nm+' ',nm+'_nobeta ',1).replace(' beta','')
        b2=b.replace(' beta','')
        extra='(n = 0 -> m = 0) ->\n  ' if nm=='gemv' else ''
        agi=' -> '.join(f'agree {p} {v}1 s1 {v}2 s2' for v,_,p in ins)
        shp2=f'{out[1](o+"2")}'
        inn2=' '.join(f'assert (R{v} : forall v, reads (hl _ {o}1 {o}2 s1 s2 v) {v}1 {v}2 {vis[p]}) by (intros v; apply HR; cbn; auto).' for v,_,p in ins)
        inap=' '.join(f'assert (Q{v}1 : nr {v}2 = nr {v}1) by (match goal with H : agree _ {v}1 _ _ _ |- _ => apply H end). assert (Q{v}2 : nc {v}2 = nc {v}1) by (match goal with H : agree _ {v}1 _ _ _ |- _ => apply H end).' for v,_,p in ins)
        suffix='_partial' if nm=='gemv' else ''
        nb+=f'''
Theorem {nm}_nobeta_two_runs{suffix} {b2} {views} s1 s2 {dims} : {opth}{extra}{shp} -> {shp2} ->
  vinj {o}1 -> vinj {o}2 -> {dj} ->
  {agi} ->
  both_return ({c1n}) ({c2n}) s1 s2 (fun _ s1' s2' =>
    agree {out[2]} {o}1 s1' {o}2 s2' /\\ only_changes (inview {o}1) s1 s1' /\\ only_changes (inview {o}2) s2 s2').
Proof.
  intros. {inap}
  eapply (hr_two_runs _ [{inl}]); [ins3 tt|vdest; congruence|vdest; congruence|].
  intros Hsh HR. {inn2}
  assert (HA : forall V1 V2 v, In (V1, V2, v) [{inl}] -> disj V1 {o}1 /\\ disj V2 {o}2)
    by (intros ? ? ? HIn; cbn in HIn; repeat destruct HIn as [HIn|HIn]; first [contradiction|inversion HIn; subst; split; assumption]).
  clear HR. vdest. opts.
  all: repeat sdo; vdest; eapply {nm}_nb{wd(nm,dims)}; fin.
Qed.
'''
open('Properties/TwoRunsBlas.v','w').write(two+'End S.\n')
rejs='''
Ltac rejfin H := exfalso; apply H; clear H; unfold opshape, shape, isvec;
  rewrite ?Nat.eqb_eq, ?andb_true_iff in *; rewrite ?Nat.eqb_eq in *.
Ltac rejs := let H := fresh "Hbad" in intros; match goal with K : ~ _ |- _ => rename K into H end;
  match goal with |- rejects ?p _ => let f := (match p with ?f _ => f end) in idtac end;
  cbv beta delta [gemm gemv ger geru her syr her2 syr2 hemv symv trmv trsv trsm trmm hemm symm herk syrk her2k syr2k]; cbv zeta;
  repeat (apply rej_check; [assumption|intros ?]); exfalso; apply H; clear H; unfold opshape, shape, isvec;
  repeat match goal with
  | K : (_ && _) = true |- _ => apply andb_prop in K; destruct K
  | K : (_ =? _) = true |- _ => apply Nat.eqb_eq in K
  end;
  repeat match goal with
  | o : op_t |- _ => destruct o; try discriminate
  | u : uplo_t |- _ => destruct u; try discriminate
  | sd : side_t |- _ => destruct sd
  end; cbn [is_nt op_eqb notransb sel] in *;
  repeat split; try tauto; try discriminate; repeat eexists; try eassumption; try reflexivity; try congruence.
'''
safe=safe.replace('Section S.',rejs+'\nSection S.',1)
open('Properties/Safety.v','w').write(safe+'End S.\n')
open('Properties/NoBeta.v','w').write(nb+'End S.\n')
