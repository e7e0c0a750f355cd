#!/usr/bin/env python3
"""Translates the unit tests of /repo into rocq/theories/RepoTests.v."""
import re,sys,os
R='/repo/src/'
FILES=['graph/default_graph.rs','traversal/breadth_first.rs','traversal/depth_first.rs','selection/components.rs',
 'matching/pairing.rs','matching/greedy.rs','matching/forest.rs','matching/marker.rs','matching/blossom.rs','matching/maximum_matching.rs']
def tests(src):
    out=[]; mod=None
    lines=src.split('\n'); i=0
    while i<len(lines):
        m=re.match(r'mod (\w+) \{',lines[i])
        if m: mod=m.group(1)
        if lines[i].strip()=='#[test]':
            i+=1; sp=None
            m=re.match(r'\s*#\[should_panic\(expected="(.*)"\)\]',lines[i])
            if m: sp=m.group(1); i+=1
            name=re.match(r'\s*fn (\w+)\(\) \{',lines[i]).group(1); start=i+1; i+=1; body=[]
            while lines[i]!='    }':
                body.append(re.sub(r'//.*','',lines[i])); i+=1
            out.append((mod,name,sp,' '.join(body),start))
        i+=1
    return out
def lit(s):
    """vec![ .. ] and [ .. ] literals to Coq lists"""
    s=re.sub(r'vec!\s*\[',r'[',s)
    s=re.sub(r'Step::new\(\s*(\d+),\s*(\d+),\s*(\w+)\s*\)',r'mkStep \1 \2 \3',s)
    # commas between list elements -> ;
    out='';st=[]
    for c in s:
        if c in '[(': st.append(c)
        if c in '])': st.pop()
        out+=';' if c==',' and st and st[-1]=='[' else c
    out=re.sub(r';\s*\]',']',out)
    return re.sub(r'\s+',' ',out).strip()
def graph_from(l):
    return 'dg_try_from_edges (%s)'%lit(l) if re.match(r'vec!\[\s*\(',l) else 'dg_try_from_adjacency (%s)'%lit(l)
PAN={'duplicate node: (\\d+)':'PForestDuplicate %s','missing parent: (\\d+)':'PForestMissing %s','node marked twice: (\\d+)':'PNodeMarkedTwice %s',
 r'edge marked twice: \((\d+),(\d+)\)':'PEdgeMarkedTwice %s %s','even path augmentation':'PEvenPath','missing node: (\\d+)':'PMissingMate %s','blossom root not found':'PBlossomRoot'}
ERR=r'Error::(\w+)\(([\d, ]+)\)'
def err(s):
    m=re.search(ERR,s); return 'Err (%s %s)'%(m.group(1),m.group(2).replace(',',' '))
def res(s):
    s=s.strip()
    if s=='Ok(())': return 'Ok tt'
    m=re.match(r'Ok\((.*)\)$',s)
    return 'Ok %s'%m.group(1) if m else err(s)
def stmts(body):
    out=[];d=0;cur=''
    for c in body:
        if c in '([{': d+=1
        if c in ')]}': d-=1
        if c==';' and d==0: out.append(cur.strip()); cur=''
        else: cur+=c
    if cur.strip(): out.append(cur.strip())
    return [re.sub(r'\s+',' ',x) for x in out]
def split2(s):
    d=0
    for i,c in enumerate(s):
        if c in '([{': d+=1
        if c in ')]}': d-=1
        if c==',' and d==0 and s[:i].count('<')-s[:i].count('->')==s[:i].count('>')-s[:i].count('->'): return s[:i].strip(),s[i+1:].strip()
    raise Exception(s)
def tr(mod,name,sp,body):
    env={}; code=[]; checks=[]
    def add(x): code.append(x)
    n=[0]
    def chk(x):
        n[0]+=1; add('let! _ := check (%s) in'%x)
    for s in stmts(body):
        m=re.match(r'let (?:mut )?(\w+) = (.*)$',s)
        if m:
            v,e=m.groups()
            if e=='DefaultGraph::new()': env[v]='graph'; add('let %s := dg_new in'%v); continue
            if e in('Pairing::new()','Forest::new()','Marker::new()'):
                env[v]=e[:-7]; add('let %s := %s in'%(v,{'Pairing':'p_new','Forest':'f_new','Marker':'mk_new'}[e[:-7]])); continue
            k=re.match(r'DefaultGraph::try_from\(\s*(vec!.*?\])\s*\)(\.unwrap\(\))?$',e)
            if k:
                if k.group(2): env[v]='graph'; add('let! %s := unwrap (%s) in'%(v,graph_from(k.group(1))))
                else: env[v]='rgraph'; add('let %s := %s in'%(v,graph_from(k.group(1))))
                continue
            k=re.match(r'(Depth|Breadth)First::new\(&(\w+), (\d+)\)(\.unwrap\(\))?$',e)
            if k:
                f={'Depth':'dfs','Breadth':'bfs'}[k.group(1)]
                env[v]=(f,k.group(2)) if k.group(4) else 'rtrav'
                add(('let! %s := unwrap (%s_new (as_graph %s) %s) in' if k.group(4) else 'let %s := %s_new (as_graph %s) %s in')%(v,f,k.group(2),k.group(3))); continue
            k=re.match(r'DefaultGraph::try_from\((\w+)\)\.unwrap\(\)$',e)
            if k:
                f,g=env[k.group(1)]; env[v]='graph'
                add('let! %s := unwrap (dg_try_from_dfs 1000 (as_graph %s) %s) in'%(v,g,k.group(1))); continue
            k=re.match(r'components\(&(\w+)\)\.collect::<Vec<_>>\(\)$',e)
            if k: env[v]='comps'; add('let! %s := c_collect 1000 (as_graph %s) (components (as_graph %s)) in'%(v,k.group(1),k.group(1))); continue
            k=re.match(r'greedy\(&(\w+)\)$',e)
            if k: env[v]='Pairing'; add('let! %s := greedy 1000 (as_graph %s) in'%(v,k.group(1))); continue
            k=re.match(r'Blossom::new\((\d+), (vec!.*?\]), (vec!.*?\])\)$',e)
            if k: env[v]='Blossom'; add('let! %s := b_new %s (%s) (%s) in'%(v,k.group(1),lit(k.group(2)),lit(k.group(3)))); continue
            k=re.match(r'(\w+)\.contract_graph\(&(\w+)\)$',e)
            if k: env[v]='rgraph'; add('let %s := b_contract_graph %s (as_graph %s) in'%(v,k.group(1),k.group(2))); continue
            if e.startswith('vec!'): env[v]='list'; add('let %s := %s in'%(v,lit(e))); continue
            raise Exception('let '+s)
        m=re.match(r'Blossom::new\((\d+), (vec!.*?\]), (vec!.*?\])\)$',s)
        if m: add('let! _ := b_new %s (%s) (%s) in'%(m.group(1),lit(m.group(2)),lit(m.group(3)))); continue
        m=re.match(r'(\w+)\.(pair|add_root|add_edge|mark_node|mark_edge|mate|augment)\((.*)\)$',s)
        if m and not s.startswith('assert'):
            v,f,a=m.groups(); a=a.replace(',',' ')
            if f=='pair': add('let %s := p_pair %s %s in'%(v,v,a))
            elif f=='mate': add('let! _ := p_mate %s %s in'%(v,a))
            elif f=='augment': add('let! %s := p_augment %s %s in'%(v,v,a))
            else: add('let! %s := %s%s %s %s in'%(v,{'Forest':'f_','Marker':'mk_'}[env[v]],f,v,a))
            continue
        m=re.match(r'maximum_matching\(&(\w+), &mut (\w+)\)$',s)
        if m: add('let! %s := maximum_matching canon [] 1000 (as_graph %s) %s in'%(m.group(2),m.group(1),m.group(2))); continue
        m=re.match(r'assert_eq!\(\s*(.*?)\s*\)$',s)
        if not m: raise Exception(s)
        A,B=split2(m.group(1))
        k=re.match(r'(\w+)\.(add_node|add_edge)\((.*)\)$',A)
        if k:
            v,f,a=k.groups(); add("let '(%s, r) := dg_%s %s %s in"%(v,f,v,a.replace(',',' '))); chk('bool_decide (r = %s)'%res(B)); continue
        if env.get(A)=='rgraph':
            if 'Err' in B: chk('is_err %s (%s)'%(A,err(B)))
            else:
                k=re.match(r'DefaultGraph::try_from\((vec!.*)\)$',B); add('let! l := %s in let! r := %s in let! same := dg_eq l r in'%(A,graph_from(k.group(1)))); chk('same')
            continue
        if env.get(A)=='rtrav': chk('match %s with Err e => bool_decide (e = %s) | _ => false end'%(A,err(B)[4:])); continue
        if env.get(A)=='graph' and env.get(B)=='graph': add('let! same := dg_eq %s %s in'%(A,B)); chk('same'); continue
        k=re.match(r'(\w+) == (\w+)$',A)
        if k: add('let! same := dg_eq %s %s in'%k.groups()); chk('Bool.eqb same %s'%B); continue
        if env.get(A)=='comps': add('let! same := eq_all %s (%s) in'%(A,lit(B))); chk('same'); continue
        k=re.match(r'(\w+)\.(is_empty|order|size)\(\)$',A)
        if k:
            v,f=k.groups(); chk('bool_decide (%s%s %s = %s%s)'%('dg_' if env[v]=='graph' else 'p_',f,v,B,'' if f=='is_empty' else '%nat')); continue
        k=re.match(r'(\w+)\.nodes\(\)\.collect::<Vec<_>>\(\)$',A)
        if k: chk('bool_decide (g_nodes (as_graph %s) = %s)'%(k.group(1),lit(B))); continue
        k=re.match(r'(\w+)\.edges\(\)\.collect::<Vec<_>>\(\)$',A)
        if k: chk('bool_decide (g_edges (as_graph %s) = %s)'%(k.group(1),lit(B))); continue
        k=re.match(r'(\w+)\.neighbors\((\d+)\)\.err\(\)$',A)
        if k: chk('bool_decide (dg_neighbors %s %s = %s)'%(k.group(1),k.group(2),err(B))); continue
        k=re.match(r'(\w+)\.neighbors\((\d+)\)\.unwrap\(\)\.collect::<Vec<_>>\(\)$',A)
        if k: chk('bool_decide (dg_neighbors %s %s = Ok (%s))'%(k.group(1),k.group(2),lit(B))); continue
        k=re.match(r'(\w+)\.(has_node|degree|has_edge|mate|path)\((.*)\)$',A)
        if k:
            v,f,a=k.groups(); a=a.replace(',',' '); t=env[v]
            p={'graph':'dg_','Pairing':'p_','Forest':'f_','Marker':'mk_'}[t]
            if t=='graph' and f!='has_node': r=res(B); r=r+'%nat' if f=='degree' and r.startswith('Ok') else r
            elif f=='mate': r='Ok '+B
            elif f=='path':
                r='Ok None' if B=='None' else 'Ok (Some (%s))'%lit(re.match(r'Some\((.*)\)$',B).group(1))
            else: r=B
            chk('bool_decide (%s%s %s %s = %s)'%(p,f,v,a,r)); continue
        k=re.match(r'(\w+)\.collect::<Vec<_>>\(\)$',A)
        if k:
            f,g=env[k.group(1)]; add('let! steps := %s_collect 1000 (as_graph %s) %s in'%(f,g,k.group(1))); chk('bool_decide (steps = %s)'%lit(B)); continue
        k=re.match(r'(\w+)\.into_table\(\)$',A)
        if k:
            f,g=env[k.group(1)]; add('let! table := dfs_into_table 1000 (as_graph %s) %s in'%(g,k.group(1))); chk('bool_decide (table = %s)'%lit(B)); continue
        k=re.match(r'(\w+)\.pairs\.is_empty\(\)$',A)
        if k: chk('bool_decide (bool_decide (map_to_list %s = []) = %s)'%(k.group(1),B)); continue
        k=re.match(r'(\w+)\.pairs$',A)
        if k: chk('bool_decide (%s = list_to_map (%s))'%(k.group(1),lit(re.match(r'(\[.*?\])\s*\.iter',B).group(1)))); continue
        k=re.match(r'(\w+)\.edges\(\)\.collect::<(BTreeSet|HashMap)<.*>>\(\)$',A)
        if k:
            b='[]' if B=='HashMap::new()' else lit(re.match(r'(\[.*?\])\s*\.iter',B).group(1))
            chk('same_items (p_edges_of (map_to_list %s)) (%s)'%(k.group(1),b)); continue
        k=re.match(r'(\w+)\.even_nodes\(\)\.collect::<HashSet<_>>\(\)$',A)
        if k: chk('same_items (even_nodes %s) (%s)'%(k.group(1),lit(re.search(r'from_iter\((\[.*?\])',B).group(1)))); continue
        k=re.match(r'(\w+)\.path$',A)
        if k: chk('bool_decide (b_path %s = %s)'%(k.group(1),lit(B))); continue
        k=re.match(r'(\w+)\.contract_pairing\(&(\w+)\)$',A)
        if k: chk('bool_decide (b_contract_pairing %s (p_edges_of (map_to_list %s)) = %s)'%(k.group(1),k.group(2),B)); continue
        k=re.match(r'(\w+)\.lift\((\w+), &(\w+)\)$',A)
        if k: add('let! lifted := b_lift 1000 %s %s (as_graph %s) in'%k.groups()); chk('bool_decide (lifted = %s)'%lit(B)); continue
        raise Exception('assert '+A+' ### '+B)
    if sp:
        for r,t in PAN.items():
            m=re.match(r+'$',sp)
            if m: want='Panic (%s)'%(t%m.groups()); break
        else: raise Exception(sp)
    else: want='Ok true'
    return ' '.join(code)+' Ok true', want
H='''(** The unit tests of the repository, replayed on the model by evaluation.
    Generated by tools/repo_tests.py from /repo/src.  These are tests of the
    model's fidelity, not claims. *)
From Verif Require Import Outcome GraphModel TraversalModel ComponentsModel PairingModel GreedyModel
  MaximumModel.
Local Open Scope N_scope.

Definition canon : hash_order := fun _ p => map_to_list p.
Definition check (b : bool) : comp unit := if b then Ok tt else Panic PNone.
Definition is_err {A} (m : comp A) (want : comp unit) : bool :=
  match m, want with Err e, Err e' => bool_decide (e = e') | _, _ => false end.
Fixpoint eq_all (a b : list DefaultGraph) : comp bool :=
  match a, b with
  | [], [] => Ok true
  | x :: a', y :: b' => let! s := dg_eq x y in if s : bool then eq_all a' b' else Ok false
  | _, _ => Ok false
  end.
Definition same_items {A} `{EqDecision A} (a b : list A) : bool :=
  bool_decide (Forall (fun x => x ∈ b) a) && bool_decide (Forall (fun x => x ∈ a) b).
(** forest.rs:43-47  [even_nodes]. *)
Definition even_nodes (f : Forest) : list N :=
  filter (fun v => match f_parents f !! v with Some (mkEntry _ Even) => true | _ => false end = true) (f_nodes f).
'''
out=[H]; tot=0
for f in FILES:
    src=open(R+f).read()
    out.append('(** ** %s *)'%f)
    for mod,name,sp,body,line in tests(src):
        code,want=tr(mod,name,sp,body)
        base=os.path.basename(f)[:-3]
        out.append('(** %s:%d *)\nExample test_%s_%s_%s : (%s) = %s.\nProof. vm_compute. reflexivity. Qed.'%(f,line,base,mod,name,code,want)); tot+=1
open('/verif/rocq/theories/RepoTests.v','w').write('\n'.join(out)+'\n')
print(tot)
