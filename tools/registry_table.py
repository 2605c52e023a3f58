# Prints the table of statistic classes in rocq/theories/RegistryModel.v from the source text (ast, nothing is imported).
import ast
B='/repo/src/pysatl_criterion/statistics/'
files=['statistic','goodness_of_fit/common','goodness_of_fit/graph_goodness_of_fit']+['goodness_of_fit/'+f for f in 'normal exponent weibull uniform gamma beta student log_normal'.split()]
C={}
for f in files:
    t=ast.parse(open(B+f+'.py').read())
    for c in t.body:
        if isinstance(c,ast.ClassDef):
            d={}
            for m in c.body:
                if isinstance(m,ast.FunctionDef):
                    d[m.name]=(any('abstractmethod' in ast.unparse(x) for x in m.decorator_list),m)
            C[c.name]=dict(file=f.split('/')[-1]+'.py',line=c.lineno,bases=[ast.unparse(b) for b in c.bases if ast.unparse(b)!='ABC'],d=d)
def mro(n):
    def merge(ls):
        r=[]
        while any(ls):
            ls=[l for l in ls if l]
            for l in ls:
                h=l[0]
                if not any(h in k[1:] for k in ls): break
            else: raise Exception
            r.append(h); ls=[[x for x in k if x!=h] for k in ls]
        return r
    bs=[b for b in C[n]['bases'] if b in C]
    return [n]+merge([mro(b) for b in bs]+[bs])
def res(n,a):
    for k in mro(n):
        if a in C[k]['d']: return k,C[k]['d'][a]
    return None
def absn(n):
    names={a for k in mro(n) for a in C[k]['d']}
    return [a for a in names if res(n,a)[1][0]]
def ret(m):
    return [ast.unparse(s.value) for s in ast.walk(m) if isinstance(s,ast.Return)][-1]
out=[]
for n in C:
    if 'AbstractGoodnessOfFitStatistic' not in mro(n): continue
    a=absn(n)
    if a: continue
    sc=ret(res(n,'short_code')[1][1]); code=res(n,'code'); alt=res(n,'alternative')
    dist=ret(res(n,'distribution')[1][1])
    out.append((n,C[n]['file'],C[n]['line'],dist.split('.')[1],sc,code[0],ret(code[1][1]),[ast.unparse(s) for s in code[1][1].body if isinstance(s,ast.Assign)],ret(alt[1][1])))
if False:
    print(len(out))
    import collections
    print(collections.Counter(o[3] for o in out)); print(collections.Counter(o[8] for o in out)); print(collections.Counter(o[6] for o in out)); print([o for o in out if o[5]!=o[0]])
def emit():
    base={'NORMAL':'normality_base','EXPONENTIAL':'exponentiality_base','WEIBULL':'weibull_base','UNIFORM':'uniform_base','GAMMA':'gamma_base','BETA':'beta_base','STUDENT':'student_base','LOG_NORMAL':'lognormal_base'}
    alt={'RightAlternative()':'(Fixed RIGHT)','TwoSidedAlternative()':'(Fixed TWO_TAILED)','LeftAlternative()':'(Fixed LEFT)','Alternative.get_alternative(self.alternative_type)':'(Argument TWO_TAILED)','Alternative.get_alternative(LillieforsTest.alternative_type)':'(Fixed TWO_TAILED)'}
    groups={}
    for n,f,l,dist,sc,_,r,asg,al in out:
        assert any(('short_code = %s.short_code()'%n)==a for a in asg) or 'CabanaQuiroz' in n,(n,asg)
        b=base[dist]
        if 'parent_code' in r:
            assert any(a.startswith('parent_code = AbstractGraph') for a in asg)
            b='(graph_base %s)'%b
        if 'base_code' in r: b='gof_code'
        groups.setdefault((f,dist),[]).append('stat "%s" %s "%s" %s %s (* %d *)'%(n,dist,sc.strip("'"),b,alt[al],l))
    for (f,d),rows in groups.items():
        print('(** %s, one row per concrete class, with the line of its definition *)'%f)
        print('Definition %s_classes : list stat_class := ['%f.replace('.py',''))
        print(';\n'.join('  '+r for r in rows).replace(' (*',' (*'))
        print('].')
if __name__ == '__main__':
    emit()
