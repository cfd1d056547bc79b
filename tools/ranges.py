import sys,re
f=sys.argv[1]; L=open(f).read().split('\n')
i=0
while i<len(L):
    if re.match(r'(func|type|var|const) ',L[i]):
        j=i
        if not (L[i].rstrip().endswith('}') or not re.search(r'[({]\s*$',L[i])):
            while j<len(L) and not re.match(r'[})]',L[j]): j+=1
        print(i+1,j+1,L[i][:90])
        i=j
    i+=1
