"""Write rocq/theories/Data/*.v from the .mat files of /repo (read only; pure Python reader mat5.py).

The index arrays and sparse matrices are copied entry by entry, in the order of the file; the spanning trees
are computed here (breadth first) and checked in Coq."""
import os, sys
sys.path.insert(0, os.path.dirname(__file__))
from mat5 import load
P = '/repo/pygsp/data/pointclouds/'
OUT = os.path.join(os.path.dirname(__file__), '..', 'rocq', 'theories', 'Data')

def sparse(m):
    return [(m['ir'][k], c, m['pr'][k]) for c in range(m['dims'][1]) for k in range(m['jc'][c], m['jc'][c + 1])]

def bfs(n, root, pairs):
    adj = [[] for _ in range(n)]
    for a, b in pairs:
        adj[a].append(b); adj[b].append(a)
    seen = {root}; q = [root]; tree = []
    for u in q:
        for v in adj[u]:
            if v not in seen:
                seen.add(v); q.append(v); tree.append((v, u))
    return tree

def emit(f, name, ty, items, what):
    items = list(items)
    parts = []
    for k in range(0, len(items), 400):
        parts.append(f'{name}_{k // 400}')
        f.write(f'Definition {parts[-1]} : list {ty} := [\n' + ';\n'.join('; '.join(items[j:min(j + 12, k + 400)]) for j in range(k, min(k + 400, len(items)), 12)) + '].\n')
    f.write(f'(** {what} *)\nDefinition {name} : list {ty} := ' + ' ++ '.join(parts) + '.\n')

def head(f, what):
    f.write(f'(** {what}  Generated by tools/extract_data.py. *)\nFrom Coq Require Import List NArith.\nImport ListNotations.\nOpen Scope N_scope.\n')

pr = lambda p: f'({p[0]},{p[1]})'
d = load(P + 'minnesota.mat'); E = sparse(d['A'])
with open(OUT + '/MinnesotaData.v', 'w') as f:
    head(f, 'pygsp/data/pointclouds/minnesota.mat.')
    emit(f, 'minnesota_A', '(N * N * N)', (f'({a},{b},{int(v)})' for a, b, v in E), 'The entries (row, column, value) of the sparse matrix A, column by column.')
    emit(f, 'minnesota_tree', '(N * N)', map(pr, bfs(d['A']['dims'][0], 354, [(a, b) for a, b, _ in E] + [(348, 354)])), 'A spanning tree (child, parent) rooted at 354, with the added road 348-354.')
d = load(P + 'airfoil.mat'); E = list(zip(d['i_inds']['data'], d['j_inds']['data']))
with open(OUT + '/AirfoilData.v', 'w') as f:
    head(f, 'pygsp/data/pointclouds/airfoil.mat.')
    emit(f, 'airfoil_pairs', '(N * N)', map(pr, E), 'The arrays i_inds and j_inds side by side.')
    emit(f, 'airfoil_tree', '(N * N)', map(pr, bfs(4253, 0, [(a - 1, b - 1) for a, b in E])), 'A spanning tree (child, parent) rooted at 0, vertices counted from 0.')
d = load(P + 'logogsp.mat'); E = sparse(d['W'])
with open(OUT + '/LogoData.v', 'w') as f:
    head(f, 'pygsp/data/pointclouds/logogsp.mat.')
    emit(f, 'logo_W', '(N * N * N)', (f'({a},{b},{int(v)})' for a, b, v in E), 'The entries (row, column, value) of the sparse matrix W, column by column.')
    emit(f, 'logo_tree', '(N * N)', map(pr, bfs(d['W']['dims'][0], 0, [(a, b) for a, b, _ in E])), 'A spanning tree (child, parent) rooted at 0.')
    for k in ('idx_g', 'idx_s', 'idx_p'):
        emit(f, 'logo_' + k, 'N', map(str, d[k]['data']), f'The array {k}.')
